(** Filters whose every call is off by a little, where the covariance need not
    stay symmetric. *)
From Coq Require Import Reals.
From mathcomp Require Import all_ssreflect all_algebra.
From Verif Require Import Base BaseMx ModelEigen ModelKalman SpecKalman SpecFilter.
Set Implicit Arguments.
Unset Strict Implicit.
Unset Printing Implicit Defensive.
Import GRing.Theory.
Local Open Scope ring_scope.

(** [B] is [A] up to the fraction [e]: for any two directions the difference of
    the covariances is at most [e] times the product of the standard
    deviations. *)
Definition alike n (e : R) (A B : 'M[R]_n) : Prop := forall w g : 'cV[R]_n,
  Rle (Rmult ((w^T *m (B - A) *m g) 0 0) ((w^T *m (B - A) *m g) 0 0)) (Rmult (Rmult e e) (Rmult (qf A w) (qf A g))).

(** A run in which someone changes the covariance returned by each call by up to
    the fraction [e], not necessarily to a symmetric one, and the estimate by up
    to [f] standard deviations before the next call; no measurement is more than
    [s] standard deviations away from what the estimate predicts. *)
Fixpoint lopsided n (e f s : R) (h : seq (op n)) (x : 'cV[R]_n) (P : 'M[R]_n) (x' : 'cV[R]_n) (P' : 'M[R]_n) : Prop :=
  match h with
  | [::] => x' = x /\ P' = P
  | o :: h => (if o is Update _ z H Rk then within (Rmult s s) (H *m P *m H^T + Rk) (z - H *m x) else True) /\
      exists (x1 x2 : 'cV[R]_n) (P1 P2 : 'M[R]_n),
      [/\ call o (DV x) (DM P) = Ret (true, (DV x1, DM P1)), alike e P1 P2, within (Rmult f f) P1 (x2 - x1)
        & lopsided e f s h x2 P2 x' P']
  end.
