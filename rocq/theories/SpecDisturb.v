(** Filters whose every call is off by a little. *)
From Coq Require Import Reals.
From mathcomp Require Import all_ssreflect all_algebra.
From Verif Require Import Base BaseMx ModelEigen ModelKalman SpecKalman SpecFilter.
Set Implicit Arguments.
Unset Strict Implicit.
Unset Printing Implicit Defensive.
Import GRing.Theory.
Local Open Scope ring_scope.

(** [B] is [A] up to the fraction [e], in every direction. *)
Definition between n (e : R) (A B : 'M[R]_n) : Prop := loewner (Rminus 1 e *: A) B /\ loewner B (Rplus 1 e *: A).

(** A run in which someone changes the covariance returned by each call by up to
    the fraction [e] and the estimate by up to [f] standard deviations before
    the next call. *)
Fixpoint disturbed n (e f : R) (h : seq (op n)) (x : 'cV[R]_n) (P : 'M[R]_n) (x' : 'cV[R]_n) (P' : 'M[R]_n) : Prop :=
  match h with
  | [::] => x' = x /\ P' = P
  | o :: h => exists (x1 x2 : 'cV[R]_n) (P1 P2 : 'M[R]_n),
      [/\ call o (DV x) (DM P) = Ret (true, (DV x1, DM P1)), symmetric P2, between e P1 P2, within (Rmult f f) P1 (x2 - x1)
        & disturbed e f h x2 P2 x' P']
  end.
(** The same run, in which moreover no measurement is more than [s] standard
    deviations away from what the estimate predicts. *)
Fixpoint unsurprised n (e f s : R) (h : seq (op n)) (x : 'cV[R]_n) (P : 'M[R]_n) (x' : 'cV[R]_n) (P' : 'M[R]_n) : Prop :=
  match h with
  | [::] => x' = x /\ P' = P
  | o :: h => (if o is Update _ z H Rk then within (Rmult s s) (H *m P *m H^T + Rk) (z - H *m x) else True) /\
      exists (x1 x2 : 'cV[R]_n) (P1 P2 : 'M[R]_n),
      [/\ call o (DV x) (DM P) = Ret (true, (DV x1, DM P1)), symmetric P2, between e P1 P2, within (Rmult f f) P1 (x2 - x1)
        & unsurprised e f s h x2 P2 x' P']
  end.

(** At most [k] measurements before the first prediction, and at most [m]
    between predictions. *)
Fixpoint spaced n (m k : nat) (h : seq (op n)) : Prop :=
  match h with
  | [::] => True
  | Predict _ _ :: h => spaced m m h
  | Update _ _ _ _ :: h => if k is k'.+1 then spaced m k' h else False
  end.
