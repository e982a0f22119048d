(** KalmanFilter::filterUpdate in rounded arithmetic, for any number of states
    and measurements: [r] rounds the result of an addition, [dot] is the inner
    product of a row and a column (ModelFilterFloat.v) and [inv] is the matrix
    inversion of the library, about which nothing is assumed here.  Overflow is
    not modelled; sizes are right.  No proofs here. *)
From Coq Require Import Reals.
From mathcomp Require Import all_ssreflect all_algebra.
From Verif Require Import Base BaseMx ModelFilterFloat.
Set Implicit Arguments.
Unset Strict Implicit.
Unset Printing Implicit Defensive.
Import GRing.Theory.
Local Open Scope ring_scope.
Local Open Scope outcome_scope.

Section Update.
Variables (r : R -> R) (dot : dot_fun) (n m : nat) (inv : 'M[R]_m -> outcome 'M[R]_m).
(** KalmanFilter.cpp 101: the gain. *)
Definition gain_f (P : 'M[R]_n) (H : 'M[R]_(m, n)) (Rk : 'M[R]_m) : outcome 'M[R]_(n, m) :=
  Si <- inv (map_mx r (mul_f dot (mul_f dot H P) H^T + Rk)) ;;
  Ret (mul_f dot (mul_f dot P H^T) Si).
(** KalmanFilter.cpp 98-108. *)
Definition filterUpdate_f (x : 'cV[R]_n) (P : 'M[R]_n) (z : 'cV[R]_m) (H : 'M[R]_(m, n)) (Rk : 'M[R]_m) : outcome ('cV[R]_n * 'M[R]_n) :=
  let nu := map_mx r (z - mul_f dot H x) in
  K <- gain_f P H Rk ;;
  let IKH := map_mx r (1%:M - mul_f dot K H) in
  Ret (map_mx r (x + mul_f dot K nu),
       map_mx r (mul_f dot (mul_f dot IKH P) IKH^T + mul_f dot (mul_f dot K Rk) K^T)).
End Update.

(** Eigen's inverse() of a matrix of one row and column: 1 / S. *)
Definition inv1_f (r : R -> R) (S : 'M[R]_1) : outcome 'M[R]_1 :=
  s <- Rdivc 1 (S ord0 ord0) ;; Ret (const_mx (r s)).
