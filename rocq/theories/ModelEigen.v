(** Eigen's dynamic-size vectors and matrices and the operators the filters use.
    An operation on operands of the wrong sizes is a failed Eigen assertion
    (undefined behaviour with assertions off): [Undef].  Arithmetic is exact.
    No proofs here. *)
From Coq Require Import Reals.
From mathcomp Require Import all_ssreflect all_algebra.
From Verif Require Import Base BaseMx.
Set Implicit Arguments.
Unset Strict Implicit.
Unset Printing Implicit Defensive.
Import GRing.Theory.
Local Open Scope ring_scope.

(** Eigen::MatrixXd and Eigen::VectorXd: run-time sizes and the coefficients. *)
Record dmat := DM { dm_r : nat; dm_c : nat; dm_m : 'M[R]_(dm_r, dm_c) }.
Record dvec := DV { dv_n : nat; dv_v : 'cV[R]_dv_n }.
Arguments DM {dm_r dm_c} dm_m.
Arguments DV {dv_n} dv_v.

(** Coefficients of [A] read as an r x c matrix, if it has that size. *)
Definition as_mx (r c : nat) (A : dmat) : outcome 'M[R]_(r, c) :=
  match eq_comparable (dm_r A) r, eq_comparable (dm_c A) c with
  | left e1, left e2 => Ret (castmx (e1, e2) (dm_m A))
  | _, _ => Undef
  end.
Definition as_cv (n : nat) (v : dvec) : outcome 'cV[R]_n :=
  match eq_comparable (dv_n v) n with
  | left e => Ret (castmx (e, erefl) (dv_v v))
  | right _ => Undef
  end.

Local Open Scope outcome_scope.

(** A * B, A + B, A - B, A.transpose(). *)
Definition mul (A B : dmat) : outcome dmat :=
  b <- as_mx (dm_c A) (dm_c B) B ;; Ret (DM (dm_m A *m b)).
Definition add (A B : dmat) : outcome dmat :=
  b <- as_mx (dm_r A) (dm_c A) B ;; Ret (DM (dm_m A + b)).
Definition sub (A B : dmat) : outcome dmat :=
  b <- as_mx (dm_r A) (dm_c A) B ;; Ret (DM (dm_m A - b)).
Definition tr (A : dmat) : dmat := DM (dm_m A)^T.
(** A * x, x + y, x - y, k * x, k * A, x * y.transpose(), x.dot(y). *)
Definition mulv (A : dmat) (x : dvec) : outcome dvec :=
  b <- as_cv (dm_c A) x ;; Ret (DV (dm_m A *m b)).
Definition addv (x y : dvec) : outcome dvec :=
  b <- as_cv (dv_n x) y ;; Ret (DV (dv_v x + b)).
Definition subv (x y : dvec) : outcome dvec :=
  b <- as_cv (dv_n x) y ;; Ret (DV (dv_v x - b)).
Definition scalev (k : R) (x : dvec) : dvec := DV (k *: dv_v x).
Definition outer (x y : dvec) : dmat := DM (dv_v x *m (dv_v y)^T).
Definition dotv (x y : dvec) : outcome R :=
  b <- as_cv (dv_n x) y ;; Ret (((dv_v x)^T *m b) 0 0).
(** Identity(n, n), MatrixXd::Zero(n, m), VectorXd::Zero(n). *)
Definition ident (n : nat) : dmat := DM (1%:M : 'M[R]_n).
Definition zeros (n m : nat) : dmat := DM (0 : 'M[R]_(n, m)).
Definition zerov (n : nat) : dvec := DV (0 : 'cV[R]_n).
(** v(i), A.col(i). *)
Definition coef (v : dvec) (i : nat) : outcome R :=
  match insub i with Some k => Ret (dv_v v k 0) | None => Undef end.
Definition colv (A : dmat) (i : nat) : outcome dvec :=
  match insub i with Some k => Ret (DV (col k (dm_m A))) | None => Undef end.
(** A.inverse() (partial pivoting LU): the inverse of an invertible matrix, inf
    or NaN coefficients for a singular one. *)
Definition inverse (A : dmat) : outcome dmat :=
  a <- as_mx (dm_r A) (dm_r A) A ;;
  if a \in unitmx then Ret (DM (invmx a)) else NonFinite.
(** v.norm(). *)
Definition normv (v : dvec) : R := sqrt (((dv_v v)^T *m dv_v v) 0 0).
