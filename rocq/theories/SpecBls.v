(** Specification notions for least squares. *)
From Coq Require Import Reals.
From mathcomp Require Import all_ssreflect all_algebra.
From Verif Require Import Base BaseMx ModelEigen ModelKalman ModelBls SpecKalman SpecFilter.
Set Implicit Arguments.
Unset Strict Implicit.
Unset Printing Implicit Defensive.
Import GRing.Theory.
Local Open Scope ring_scope.

(** What is assumed of Eigen's LDLT: a solvable system with a symmetric positive
    semidefinite matrix is solved. *)
Definition ldlt_ok (ldlt : solver) : Prop :=
  forall n (A : 'M[R]_n) (b v : 'cV[R]_n), psd A -> A *m v = b ->
  exists x : 'cV[R]_n, ldlt (DM A) (DV b) = Ret (DV x) /\ A *m x = b.

(** |v|^2 and |v| *)
Definition sq n (v : 'cV[R]_n) : R := \sum_i v i 0 * v i 0.
Definition len n (v : 'cV[R]_n) : R := sqrt (sq v).

(** x is a best fit of y by H x: no other vector has a smaller weighted residual. *)
Definition best_fit m n (W : 'M[R]_m) (H : 'M[R]_(m, n)) (y : 'cV[R]_m) (x : 'cV[R]_n) : Prop :=
  forall v, Rle (qf W (y - H *m x)) (qf W (y - H *m v)).
(** Independent columns. *)
Definition full_rank m n (H : 'M[R]_(m, n)) : Prop := forall v : 'cV[R]_n, H *m v = 0 -> v = 0.

(** Documented sizes. *)
Definition lin_sizes (yk : dvec) (Hk : dmat) (xk : dvec) : Prop :=
  has_size Hk (dv_n yk) (dv_n xk) /\ (dv_n xk <= dv_n yk)%N.

(** User functions that compute h and its linearisation Hf and succeed. *)
Definition predicts m n (p : predictor) (h : 'cV[R]_n -> 'cV[R]_m) : Prop :=
  forall x yx, p (DV x) yx = Ret (true, DV (h x)).
Definition linearizes m n (q : relinearizer) (Hf : 'cV[R]_n -> 'M[R]_(m, n)) : Prop :=
  forall x H, q (DV x) H = Ret (true, DM (Hf x)).

(** [x'] solves the least-squares problem linearised about [x]. *)
Definition gauss_newton m n (W : 'M[R]_m) (h : 'cV[R]_n -> 'cV[R]_m) (Hf : 'cV[R]_n -> 'M[R]_(m, n))
    (y : 'cV[R]_m) (x x' : 'cV[R]_n) : Prop :=
  forall v, Rle (qf W (y - (h x + Hf x *m (x' - x)))) (qf W (y - (h x + Hf x *m (v - x)))).
