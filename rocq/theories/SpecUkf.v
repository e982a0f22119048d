(** Specification vocabulary for the unscented transform. *)
From Coq Require Import Reals.
From mathcomp Require Import all_ssreflect all_algebra.
From Verif Require Import Base BaseMx.
Set Implicit Arguments.
Unset Strict Implicit.
Unset Printing Implicit Defensive.
Import GRing.Theory.
Local Open Scope ring_scope.

(** The usual sigma points: the mean, then the mean plus and minus each column of
    a matrix, with one weight for the centre and one for the others. *)
Definition sigma_points n k (e : (1 + (n + n))%N = k) (x : 'cV[R]_n) (L : 'M[R]_n) : 'M[R]_(n, k) :=
  castmx (erefl n, e) (row_mx x (row_mx (x *m const_mx 1 + L) (x *m const_mx 1 - L))).
Definition sigma_weights n k (e : (1 + (n + n))%N = k) (w0 w : R) : 'cV[R]_k :=
  castmx (e, erefl 1%N) (col_mx (const_mx w0) (col_mx (const_mx w) (const_mx w))).

(** A quadratic map: constant, linear and quadratic part of each component. *)
Definition quadratic n (c : 'cV[R]_n) (B : 'M[R]_n) (A : 'I_n -> 'M[R]_n) (x : 'cV[R]_n) : 'cV[R]_n :=
  c + B *m x + \col_k (x^T *m A k *m x) 0 0.
