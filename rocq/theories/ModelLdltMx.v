(** Eigen's ldlt().solve() on a matrix, in rounded arithmetic
    (ModelLdltFloat.v).  Only the lower triangle is read.  LDLT.h chooses the
    order of the pivots from the diagonal of the matrix as it was given; here the
    order is a parameter [p]: row number [i] of the elimination is row [p i] of
    the matrix.  No proofs. *)
From Coq Require Import Reals.
From mathcomp Require Import all_ssreflect all_fingroup all_algebra.
From Verif Require Import Base BaseMx ModelLdltFloat.
Set Implicit Arguments.
Unset Strict Implicit.
Unset Printing Implicit Defensive.
Local Open Scope ring_scope.
Local Open Scope outcome_scope.

Section LdltMx.
Variables (n : nat) (p : 'S_n).
(** LDLT.h: the swaps of rows and columns, seen from the lower triangle. *)
Definition rows_f (A : 'M[R]_n) (i j : nat) : R :=
  match insub i : option 'I_n, insub j : option 'I_n with
  | Some i, Some j => if (p j <= p i)%N then A (p i) (p j) else A (p j) (p i)
  | _, _ => 0%R
  end.
(** _solve_impl: the right-hand side in the same order. *)
Definition rhs_rows (b : 'cV[R]_n) (i : nat) : R := if (insub i : option 'I_n) is Some i then b (p i) ord0 else 0%R.
(** LDLT::compute and LDLT::solve. *)
Definition ldlt_mx (r : R -> R) (msub : R -> nat -> (nat -> R) -> (nat -> R) -> R) (A : 'M[R]_n) (b : 'cV[R]_n) : outcome 'cV[R]_n :=
  x <- ldlt_nat r msub n (rows_f A) (rhs_rows b) ;;
  Ret (\col_i x ((p^-1)%g i)).
End LdltMx.
