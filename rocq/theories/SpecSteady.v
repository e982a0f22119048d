(** Histories in which every prediction adds enough noise, cycles of an update
    and a prediction, and steady covariances. *)
From Coq Require Import Reals.
From mathcomp Require Import all_ssreflect all_algebra.
From Verif Require Import Base BaseMx ModelEigen ModelKalman SpecKalman SpecFilter.
Set Implicit Arguments.
Unset Strict Implicit.
Unset Printing Implicit Defensive.
Import GRing.Theory.
Local Open Scope ring_scope.

(** In the run from the covariance [P] every prediction adds at least [d] times
    the covariance carried over from before. *)
Fixpoint excited n (d : R) (h : seq (op n)) (P : 'M[R]_n) : Prop :=
  match h with
  | [::] => True
  | o :: h => (if o is Predict Phi Q then loewner (d *: (Phi *m P *m Phi^T)) Q else True) /\
      forall (x x' : 'cV[R]_n) P', call o (DV x) (DM P) = Ret (true, (DV x', DM P')) -> excited d h P'
  end.
Definition is_predict n (o : op n) : bool := if o is Predict _ _ then true else false.
Definition predictions n (h : seq (op n)) : nat := count (@is_predict n) h.

(** A measurement followed by a prediction. *)
Record cycle (n : nat) : Type := Cycle { cm : nat; cz : 'cV[R]_cm; cH : 'M[R]_(cm, n); cR : 'M[R]_cm; cPhi : 'M[R]_n; cQ : 'M[R]_n }.
Definition cycles n (cs : seq (cycle n)) : seq (op n) :=
  flatten [seq [:: Update (cz c) (cH c) (cR c); Predict (cPhi c) (cQ c)] | c <- cs].
(** The measurement determines the whole state, and the prediction adds at least
    [d] times the noise it leaves. *)
Definition full_cycle n (d : R) (c : cycle n) : Prop :=
  [/\ pd (cR c), psd (cQ c) & exists L : 'M[R]_(n, cm c), L *m cH c = 1%:M /\
    loewner (d *: (cPhi c *m (L *m cR c *m L^T) *m (cPhi c)^T)) (cQ c)].
Definition all_full n (d : R) (cs : seq (cycle n)) : Prop := forall c, List.In c cs -> full_cycle d c.

(** The same filter with every measurement. *)
Definition constant n m (H : 'M[R]_(m, n)) (Rk : 'M[R]_m) (Phi Q : 'M[R]_n) (zs : seq 'cV[R]_m) : seq (cycle n) :=
  [seq Cycle z H Rk Phi Q | z <- zs].
(** A covariance reproduced by every cycle. *)
Definition steady n m (H : 'M[R]_(m, n)) (Rk : 'M[R]_m) (Phi Q S : 'M[R]_n) : Prop :=
  psd S /\ forall (z : 'cV[R]_m) (x : 'cV[R]_n), exists x' : 'cV[R]_n, run (cycles (constant H Rk Phi Q [:: z])) (DV x) (DM S) = Ret (true, (DV x', DM S)).
(** [A] and [B] differ by at most the fraction [e], in every direction. *)
Definition close n (e : R) (A B : 'M[R]_n) : Prop := loewner A (Rplus 1 e *: B) /\ loewner B (Rplus 1 e *: A).
