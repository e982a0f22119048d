(** Theorem C166, continued: the measurement update of a filter. *)
From Coq Require Import Reals ZArith Lia.
From Flocq Require Import Core.
From mathcomp Require Import all_ssreflect all_algebra.
From Verif Require Import Base BaseMx ModelDate ModelFilterFloat ModelUpdateFloat ModelUkfFloat SpecOverflow ProofOverflow15 ProofOverflow16.
Set Implicit Arguments.
Unset Strict Implicit.
Unset Printing Implicit Defensive.
Import GRing.Theory.
Local Open Scope ring_scope.

(** Up to 2^20 states and measurements, all entries at most 2^60 in absolute
    value, and so are those of the inverse that the library returns for the
    innovation covariance.  Nothing is claimed about the inversion itself. *)
Theorem C166_update_never_overflows : forall r n m (inv : 'M[R]_m -> outcome 'M[R]_m) (x : 'cV[R]_n) (P : 'M[R]_n) (z : 'cV[R]_m) (H : 'M[R]_(m, n)) (Rk : 'M[R]_m),
  binary64_in_range r -> Z.le (Z.of_nat n) (Z.pow 2 20) -> Z.le (Z.of_nat m) (Z.pow 2 20) ->
  (forall i, Rle (Rabs (x i ord0)) (bpow radix2 60)) -> (forall i j, Rle (Rabs (P i j)) (bpow radix2 60)) ->
  (forall i, Rle (Rabs (z i ord0)) (bpow radix2 60)) -> (forall i j, Rle (Rabs (H i j)) (bpow radix2 60)) ->
  (forall i j, Rle (Rabs (Rk i j)) (bpow radix2 60)) ->
  (forall V, inv (map_mx rnd64 (mul_f (@dot_loop rnd64) (mul_f (@dot_loop rnd64) H P) H^T + Rk)) = Ret V -> forall i j, Rle (Rabs (V i j)) (bpow radix2 60)) ->
  filterUpdate_f r (@dot_loop r) inv x P z H Rk = filterUpdate_f rnd64 (@dot_loop rnd64) inv x P z H Rk.
Proof. exact (fun r n m inv x P z H Rk Hr Hn Hm Hx HP Hz HH HR => @update_same r n m x P z H Rk Hr Hn Hm Hx HP Hz HH HR inv inv erefl). Qed.
Print Assumptions C166_update_never_overflows.

(** One measurement, the division by the innovation variance included, if that
    variance is at least 2^-60 in absolute value. *)
Theorem C166_scalar_update_never_overflows : forall r n (x : 'cV[R]_n) (P : 'M[R]_n) (z : 'cV[R]_1) (H : 'M[R]_(1, n)) (Rk : 'M[R]_1),
  binary64_in_range r -> Z.le (Z.of_nat n) (Z.pow 2 20) ->
  (forall i, Rle (Rabs (x i ord0)) (bpow radix2 60)) -> (forall i j, Rle (Rabs (P i j)) (bpow radix2 60)) ->
  (forall i, Rle (Rabs (z i ord0)) (bpow radix2 60)) -> (forall i j, Rle (Rabs (H i j)) (bpow radix2 60)) ->
  (forall i j, Rle (Rabs (Rk i j)) (bpow radix2 60)) ->
  Rle (bpow radix2 (-60)) (Rabs (map_mx rnd64 (mul_f (@dot_loop rnd64) (mul_f (@dot_loop rnd64) H P) H^T + Rk) ord0 ord0)) ->
  filterUpdate_f r (@dot_loop r) (inv1_f r) x P z H Rk = filterUpdate_f rnd64 (@dot_loop rnd64) (inv1_f rnd64) x P z H Rk.
Proof. exact: update1_same. Qed.
Print Assumptions C166_scalar_update_never_overflows.

Example C166_update_case : let I : 'M[R]_1 := 1%:M in
  Rle (bpow radix2 (-60)) (Rabs (map_mx rnd64 (mul_f (@dot_loop rnd64) (mul_f (@dot_loop rnd64) I I) I^T + I) ord0 ord0)).
Proof. exact update_case. Qed.

(** The unscented update: up to 2^20 measurements and sigma points and entries
    up to 2^40, those of the inverse included. *)
Theorem C166_unscented_update_never_overflows : forall r n m k (inv : 'M[R]_m -> outcome 'M[R]_m) (x : 'cV[R]_n) (P : 'M[R]_n) (Y : 'M[R]_(n, k)) (W : 'cV[R]_k)
    (Z : 'M[R]_(m, k)) (z : 'cV[R]_m) (Rk : 'M[R]_m),
  binary64_in_range r -> Z.le (Z.of_nat m) (Z.pow 2 20) -> Z.le (Z.of_nat k) (Z.pow 2 20) ->
  (forall i, Rle (Rabs (x i ord0)) (bpow radix2 40)) -> (forall i j, Rle (Rabs (P i j)) (bpow radix2 40)) ->
  (forall i j, Rle (Rabs (Y i j)) (bpow radix2 40)) -> (forall i, Rle (Rabs (W i ord0)) (bpow radix2 40)) ->
  (forall i j, Rle (Rabs (Z i j)) (bpow radix2 40)) -> (forall i, Rle (Rabs (z i ord0)) (bpow radix2 40)) ->
  (forall i j, Rle (Rabs (Rk i j)) (bpow radix2 40)) ->
  (forall V, inv (scatter_f rnd64 Rk W Z (mean_f rnd64 W Z) Z (mean_f rnd64 W Z)) = Ret V -> forall i j, Rle (Rabs (V i j)) (bpow radix2 40)) ->
  filterUkfUpdate_f r (@dot_loop r) inv x P Y W Z z Rk = filterUkfUpdate_f rnd64 (@dot_loop rnd64) inv x P Y W Z z Rk.
Proof. exact: ukf_update_same. Qed.
Print Assumptions C166_unscented_update_never_overflows.
Example C166_unscented_update_case : let W : 'cV[R]_1 := 1%:M in let Y : 'M[R]_1 := 0 in let Rk : 'M[R]_1 := 1%:M in
  (exists V, inv1_f rnd64 (scatter_f rnd64 Rk W Y (mean_f rnd64 W Y) Y (mean_f rnd64 W Y)) = Ret V /\ forall i j, Rle (Rabs (V i j)) (bpow radix2 40)) /\
  forall V, inv1_f rnd64 (scatter_f rnd64 Rk W Y (mean_f rnd64 W Y) Y (mean_f rnd64 W Y)) = Ret V -> forall i j, Rle (Rabs (V i j)) (bpow radix2 40).
Proof. exact ukf_update_case. Qed.
