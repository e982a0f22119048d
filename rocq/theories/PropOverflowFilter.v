(** Theorem C166, continued: the prediction of a filter does not overflow. *)
From Coq Require Import Reals ZArith Lia.
From Flocq Require Import Core.
From mathcomp Require Import all_ssreflect all_algebra.
From Verif Require Import Base BaseMx ModelDate ModelFilterFloat ModelUkfFloat SpecOverflow ProofOverflow ProofOverflow4 ProofOverflow6 ProofOverflow7.
Set Implicit Arguments.
Unset Strict Implicit.
Unset Printing Implicit Defensive.
Import GRing.Theory.
Local Open Scope ring_scope.

(** Up to 2^20 states, all entries at most 2^290 in absolute value. *)
Theorem C166_prediction_never_overflows : forall r n (x : 'cV[R]_n) (P Phi Q : 'M[R]_n), binary64_in_range r ->
  Z.le (Z.of_nat n) (Z.pow 2 20) ->
  (forall i, Rle (Rabs (x i ord0)) (bpow radix2 290)) -> (forall i j, Rle (Rabs (P i j)) (bpow radix2 290)) ->
  (forall i j, Rle (Rabs (Phi i j)) (bpow radix2 290)) -> (forall i j, Rle (Rabs (Q i j)) (bpow radix2 290)) ->
  filterPredict_f r (@dot_loop r) x P Phi Q = filterPredict_f rnd64 (@dot_loop rnd64) x P Phi Q.
Proof. exact: predict_same. Qed.
Print Assumptions C166_prediction_never_overflows.

(** With entries of 2^342 the covariance of a single state overflows. *)
Theorem C166_large_prediction_overflows : exists r, binary64_in_range r /\
  let M : 'M[R]_1 := \matrix_(i, j) bpow radix2 342 in
  snd (filterPredict_f r (@dot_loop r) (0 : 'cV[R]_1) M M 0) = 0 /\
  snd (filterPredict_f rnd64 (@dot_loop rnd64) (0 : 'cV[R]_1) M M 0) <> 0.
Proof. exact large_prediction. Qed.
Print Assumptions C166_large_prediction_overflows.

Example C166_prediction_case : Z.le (Z.of_nat 8) (Z.pow 2 20) /\ forall i j, Rle (Rabs ((1%:M : 'M[R]_8) i j)) (bpow radix2 290).
Proof. exact prediction_case. Qed.

(** The unscented prediction: up to 2^20 sigma points, weights and images of
    the points at most 2^100, process noise at most 2^500. *)
Theorem C166_unscented_prediction_never_overflows : forall r n k (W : 'cV[R]_k) (Y : 'M[R]_(n, k)) (Q : 'M[R]_n), binary64_in_range r ->
  Z.le (Z.of_nat k) (Z.pow 2 20) ->
  (forall i, Rle (Rabs (W i ord0)) (bpow radix2 100)) -> (forall i j, Rle (Rabs (Y i j)) (bpow radix2 100)) ->
  (forall i j, Rle (Rabs (Q i j)) (bpow radix2 500)) ->
  filterUkfPredict_f r W Y Q = filterUkfPredict_f rnd64 W Y Q.
Proof. exact: ukf_same. Qed.
Print Assumptions C166_unscented_prediction_never_overflows.
Example C166_unscented_case : Z.le (Z.of_nat 2) (Z.pow 2 20) /\ forall i, Rle (Rabs ((\col_(i < 2) Rdiv 1 2) i ord0)) (bpow radix2 100).
Proof. exact ukf_case. Qed.
