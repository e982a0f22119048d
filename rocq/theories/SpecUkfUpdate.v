(** Sizes of the rounding errors of the unscented update. *)
From Coq Require Import Reals.
From mathcomp Require Import all_ssreflect all_algebra.
From Verif Require Import Base BaseMx SpecFloatOps SpecKalman SpecUpdateFloat SpecUkfFloat.
Set Implicit Arguments.
Unset Strict Implicit.
Unset Printing Implicit Defensive.
Import GRing.Theory.
Local Open Scope ring_scope.

Section Sizes.
Variables (n m k : nat) (W : 'cV[R]_k) (Y : 'M[R]_(n, k)) (x : 'cV[R]_n) (Z : 'M[R]_(m, k)) (Rk : 'M[R]_m).
(** The covariance of the predicted measurements with the noise, and the cross
    covariance of the points about x with them. *)
Definition meas_cov : 'M[R]_m := Rk + cov (weights W) (points Z).
Definition cross_cov : 'M[R]_(n, m) := \matrix_(a, b) \sum_i W i 0 * (Y a i - x a 0) * (Z b i - mean (weights W) (points Z) b 0).
(** The spread of coordinate b of the predicted measurements, and of coordinate a
    of the points about x. *)
Definition spread b : R := sqrt (Rplus (cov (weights W) (points Z) b b) (Rmult (slip W Z b) (slip W Z b))).
Definition spread_about a : R := sqrt (\sum_i W i 0 * (Y a i - x a 0) * (Y a i - x a 0)).
(** The errors of the two covariances. *)
Definition meas_err a b : R := Rplus (Rmult (units k 4) (Rplus (Rabs (Rk a b)) (Rmult (spread a) (spread b)))) (Rmult (slip W Z a) (slip W Z b)).
Definition cross_err a b : R := Rplus (Rmult (units k 4) (Rmult (spread_about a) (spread b))) (Rmult (Rabs (Rminus (mean (weights W) (points Y) a 0) (x a 0))) (slip W Z b)).
(** The sizes of the computed measurement covariance and of the difference of the
    measurement z from the predicted one. *)
Definition meas_size : 'M[R]_m := \matrix_(a, b) Rplus (Rabs (meas_cov a b)) (meas_err a b).
Definition resid_size (z : 'cV[R]_m) : 'cV[R]_m := \col_b Rplus (Rabs (Rminus (z b 0) (mean (weights W) (points Z) b 0))) (slip W Z b).
End Sizes.
(** The sum of row i. *)
Definition row_sum n m (A : 'M[R]_(n, m)) i : R := \sum_l Rabs (A i l).
