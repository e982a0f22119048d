(** Sizes of the rounding errors of a weighted mean. *)
From Coq Require Import Reals.
From mathcomp Require Import all_ssreflect all_algebra.
From Verif Require Import Base BaseMx SpecFloatOps.
Set Implicit Arguments.
Unset Strict Implicit.
Unset Printing Implicit Defensive.
Import GRing.Theory.
Local Open Scope ring_scope.

(** k + p roundings of one unit each, and one percent for their products. *)
Definition units (k p : nat) : R := Rmult (Rdiv (IZR 101) (IZR 100)) (Rmult (Rplus (INR k) (INR p)) u64).
(** The points, one by one, and their weights. *)
Definition points n k (Y : 'M[R]_(n, k)) : 'I_k -> 'cV[R]_n := fun i => col i Y.
Definition weights k (W : 'cV[R]_k) : 'I_k -> R := fun i => W i ord0.
(** The error of coordinate a of the mean. *)
Definition slip n k (W : 'cV[R]_k) (Y : 'M[R]_(n, k)) (a : 'I_n) : R := Rmult (units k 1) (\sum_i Rabs (Rmult (W i ord0) (Y a i))).
(** Weights of a distribution. *)
Definition distribution k (W : 'cV[R]_k) : Prop := (forall i, Rle R0 (W i ord0)) /\ \sum_i W i ord0 = R1.
