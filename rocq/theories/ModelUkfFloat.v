(** The unscented filter (src/filter/KalmanFilter.cpp 117-247) in rounded
    arithmetic, for any number of states, measurements and sigma points: [r]
    rounds the result of every operation.  Overflow and underflow are not
    modelled; sizes are right.  No proofs here. *)
From Coq Require Import Reals.
From mathcomp Require Import all_ssreflect all_algebra.
From Verif Require Import Base BaseMx ModelFilterFloat.
Set Implicit Arguments.
Unset Strict Implicit.
Unset Printing Implicit Defensive.
Import GRing.Theory.
Local Open Scope ring_scope.
Local Open Scope outcome_scope.

Section Ukf.
Variable r : R -> R.
(** A loop that adds terms to [c], one after the other. *)
Definition acc_f k (c : R) (t : 'I_k -> R) : R := foldl (fun s i => r (Rplus s (t i))) c (enum 'I_k).
(** KalmanFilter.cpp 145-149 and 209-213: the mean of the sigma points. *)
Definition mean_f n k (W : 'cV[R]_k) (Y : 'M[R]_(n, k)) : 'cV[R]_n :=
  \col_a acc_f R0 (fun i => r (Rmult (W i ord0) (Y a i))).
(** KalmanFilter.cpp 151-155, 215-219 and 221-225: C plus the products of the
    deviations from a and b.  Factors are multiplied from left to right. *)
Definition scatter_f n m k (C : 'M[R]_(n, m)) (W : 'cV[R]_k) (A : 'M[R]_(n, k)) (a : 'cV[R]_n) (B : 'M[R]_(m, k)) (b : 'cV[R]_m) : 'M[R]_(n, m) :=
  \matrix_(p, q) acc_f (C p q) (fun i => r (Rmult (r (Rmult (W i ord0) (r (Rminus (A p i) (a p ord0))))) (r (Rminus (B q i) (b q ord0))))).
(** KalmanFilter.cpp 145-155. *)
Definition filterUkfPredict_f n k (W : 'cV[R]_k) (Y : 'M[R]_(n, k)) (Q : 'M[R]_n) : 'cV[R]_n * 'M[R]_n :=
  let x := mean_f W Y in (x, scatter_f Q W Y x Y x).
(** KalmanFilter.cpp 209-242; [inv] is the inverse of the measurement covariance
    and [dot] the inner product of a row and a column. *)
Definition filterUkfUpdate_f (dot : dot_fun) n m k (inv : 'M[R]_m -> outcome 'M[R]_m) (x : 'cV[R]_n) (P : 'M[R]_n) (Y : 'M[R]_(n, k)) (W : 'cV[R]_k) (Z : 'M[R]_(m, k)) (z : 'cV[R]_m) (Rk : 'M[R]_m)
    : outcome ('cV[R]_n * 'M[R]_n) :=
  let zh := mean_f W Z in
  let S := scatter_f Rk W Z zh Z zh in
  let T := scatter_f 0 W Y x Z zh in
  Si <- inv S ;;
  let K := mul_f dot T Si in
  let nu := map_mx r (z - zh) in
  Ret (map_mx r (x + mul_f dot K nu), map_mx r (P - mul_f dot (mul_f dot K S) K^T)).
End Ukf.
