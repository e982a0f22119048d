(** Specification notions for the filters: positive semidefinite matrices, the
    order between covariances, and mean and covariance of finite ensembles. *)
From Coq Require Import Reals.
From mathcomp Require Import all_ssreflect all_algebra.
From Verif Require Import BaseMx.
Set Implicit Arguments.
Unset Strict Implicit.
Unset Printing Implicit Defensive.
Import GRing.Theory.
Local Open Scope ring_scope.

(** x^T A x *)
Definition qf n (A : 'M[R]_n) (x : 'cV[R]_n) : R := (x^T *m A *m x) 0 0.
Definition symmetric n (A : 'M[R]_n) : Prop := A^T = A.
(** Symmetric positive semidefinite; symmetric positive definite. *)
Definition psd n (A : 'M[R]_n) : Prop := symmetric A /\ forall x, Rle 0 (qf A x).
Definition pd n (A : 'M[R]_n) : Prop := symmetric A /\ forall x, x != 0 -> Rlt 0 (qf A x).
(** A is at most B. *)
Definition loewner n (A B : 'M[R]_n) : Prop := forall x, Rle (qf A x) (qf B x).

(** A finite ensemble of vectors [X i] with weights [p i]. *)
Definition mean (I : finType) n (p : I -> R) (X : I -> 'cV[R]_n) : 'cV[R]_n := \sum_i p i *: X i.
Definition cov (I : finType) n (p : I -> R) (X : I -> 'cV[R]_n) : 'M[R]_n :=
  \sum_i p i *: ((X i - mean p X) *m (X i - mean p X)^T).
(** Weights of a product of independent ensembles. *)
Definition pprod (I J : finType) (p : I -> R) (q : J -> R) (k : I * J) : R := p k.1 * q k.2.
Definition weights (I : finType) (p : I -> R) : Prop := \sum_i p i = 1.
