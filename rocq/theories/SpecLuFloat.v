(** Hypotheses of the theorems on the inversion in double arithmetic. *)
From Coq Require Import Reals.
From mathcomp Require Import all_ssreflect all_algebra.
From Verif Require Import Base BaseMx SpecFloatOps SpecBls SpecUpdateFloat.
Set Implicit Arguments.
Unset Strict Implicit.
Unset Printing Implicit Defensive.
Import GRing.Theory.
Local Open Scope ring_scope.

(** Every vector keeps at least the share [s] of its length: the smallest
    singular value of [A] is at least [s]. *)
Definition keeps n (s : R) (A : 'M[R]_n) : Prop := forall x : 'cV[R]_n, Rle (Rmult (Rmult s s) (sq x)) (sq (A *m x)).
(** Row [i] of |P| |H|^T, summed. *)
Definition row_size n m (P : 'M[R]_n) (H : 'M[R]_(m, n)) (i : 'I_n) : R := \sum_l size_mul P H^T i l.
