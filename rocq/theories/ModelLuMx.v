(** Eigen's inverse() on a matrix (ModelLuFloat.v), in rounded arithmetic.  No
    proofs. *)
From Coq Require Import Reals.
From mathcomp Require Import all_ssreflect all_algebra.
From Verif Require Import Base BaseMx ModelLuFloat.
Set Implicit Arguments.
Unset Strict Implicit.
Unset Printing Implicit Defensive.
Local Open Scope ring_scope.
Local Open Scope outcome_scope.

Section LuMx.
Variable n : nat.
(** The entries, by natural numbers. *)
Definition entries (A : 'M[R]_n) (i j : nat) : R :=
  match insub i : option 'I_n, insub j : option 'I_n with Some i, Some j => A i j | _, _ => 0%R end.
(** InverseImpl.h, compute_inverse<Dynamic>, as called by KalmanFilter.cpp 101 and
    228. *)
Definition lu_mx (r : R -> R) (msub : R -> nat -> (nat -> R) -> (nat -> R) -> R) (A : 'M[R]_n) : outcome 'M[R]_n :=
  x <- lu_inverse r msub n (entries A) ;;
  Ret (\matrix_(i, j) x i j).
End LuMx.
