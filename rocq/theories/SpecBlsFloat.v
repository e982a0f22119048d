(** Hypotheses of the theorems on least squares in double arithmetic. *)
From Coq Require Import Reals.
From mathcomp Require Import all_ssreflect all_algebra.
From Verif Require Import Base BaseMx SpecKalman SpecBls SpecFloatOps SpecUpdateFloat.
Set Implicit Arguments.
Unset Strict Implicit.
Unset Printing Implicit Defensive.
Import GRing.Theory.
Local Open Scope ring_scope.

(** The symmetric matrix with the lower triangle of [A]: a Cholesky-type solver
    reads no other entries. *)
Definition lower n (A : 'M[R]_n) : 'M[R]_n := \matrix_(i, j) if (j <= i)%N then A i j else A j i.
(** [x] is the exact solution of a system whose entries differ from those of [A]
    by up to [s] times the geometric mean of the diagonal entries: the backward
    error of Cholesky-type solvers (Higham, Accuracy and Stability of Numerical
    Algorithms, theorem 10.4), where s is some 4 n 2^-53. *)
Definition solved n s (A : 'M[R]_n) (b x : 'cV[R]_n) : Prop :=
  exists E : 'M[R]_n, (forall i j, Rle (Rabs (E i j)) (Rmult s (Rmult (sqrt (A i i)) (sqrt (A j j))))) /\ (lower A + E) *m x = b.
(** The columns are independent by a margin: with every column scaled to length
    one, the smallest eigenvalue of the normal matrix is at least [l]. *)
Definition apart n (l : R) (A : 'M[R]_n) : Prop :=
  forall z : 'cV[R]_n, Rle (Rmult l (\sum_i Rmult (A i i) (Rmult (z i 0) (z i 0)))) (qf A z).
(** |y| + |H| |x|, the size of the terms of the residual. *)
Definition resid_size m n (H : 'M[R]_(m, n)) (y : 'cV[R]_m) (x : 'cV[R]_n) : 'cV[R]_m := map_mx Rabs y + size_mul H x.
