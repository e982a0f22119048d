(** Theorem C166, continued: fine alignment. *)
From Coq Require Import Reals ZArith Lia.
From Flocq Require Import Core.
From mathcomp Require Import all_ssreflect all_algebra.
From Verif Require Import Base BaseMx ModelDate ModelFilterFloat ModelUpdateFloat ModelFineFloat SpecOverflow ProofOverflow17.
Set Implicit Arguments.
Unset Strict Implicit.
Unset Printing Implicit Defensive.
Import GRing.Theory.
Local Open Scope ring_scope.

(** The prediction: the tangent of the latitude, the rotation rate of the Earth
    and gravity up to 2^100, the radius at least 2^-100, state and covariance
    up to 2^290. *)
Theorem C166_fine_prediction_never_overflows : forall r, binary64_in_range r -> forall lat wE g rad (x : 'cV[R]_8) (P : 'M[R]_8),
  Rle (Rabs (tan lat)) (bpow radix2 100) -> Rle (Rabs wE) (bpow radix2 100) -> Rle (Rabs g) (bpow radix2 100) -> Rle (bpow radix2 (-100)) (Rabs rad) ->
  (forall i, Rle (Rabs (x i ord0)) (bpow radix2 290)) -> (forall i j, Rle (Rabs (P i j)) (bpow radix2 290)) ->
  fineAlignmentPredict_f r (@dot_loop r) (fun x => r (sin x)) (fun x => r (cos x)) (fun x => r (tan x)) lat wE g rad x P =
  fineAlignmentPredict_f rnd64 (@dot_loop rnd64) (fun x => rnd64 (sin x)) (fun x => rnd64 (cos x)) (fun x => rnd64 (tan x)) lat wE g rad x P.
Proof. exact fine_predict_same. Qed.
Print Assumptions C166_fine_prediction_never_overflows.

(** The azimuth update: state and covariance up to 2^60, the variance of the
    azimuth not negative, a standard deviation of the measurement between 2^-15
    and 2^20 and an interval between 2^-30 and 2^20. *)
Theorem C166_azimuth_update_never_overflows : forall r, binary64_in_range r -> forall azMeas dtAz azEst sigAz (x : 'cV[R]_8) (P : 'M[R]_8),
  (forall i, Rle (Rabs (x i ord0)) (bpow radix2 60)) -> (forall i j, Rle (Rabs (P i j)) (bpow radix2 60)) ->
  (let i := @Ordinal 8 2 erefl in Rle R0 (P i i)) -> Rle (Rabs azMeas) (bpow radix2 50) -> Rle (Rabs azEst) (bpow radix2 50) ->
  Rle (bpow radix2 (-15)) (Rabs sigAz) -> Rle (Rabs sigAz) (bpow radix2 20) -> Rle (bpow radix2 (-30)) dtAz -> Rle dtAz (bpow radix2 20) ->
  fineAlignmentAzimuthUpdate_f r (@dot_loop r) (inv1_f r) azMeas dtAz azEst sigAz x P =
  fineAlignmentAzimuthUpdate_f rnd64 (@dot_loop rnd64) (inv1_f rnd64) azMeas dtAz azEst sigAz x P.
Proof. exact azimuth_same. Qed.
Print Assumptions C166_azimuth_update_never_overflows.

Example C166_fine_case : Rle (Rabs (tan 0)) (bpow radix2 100) /\ Rle (bpow radix2 (-100)) (Rabs 6378137) /\
  (let i := @Ordinal 8 2 erefl in Rle R0 ((1%:M : 'M[R]_8) i i)) /\
  Rle (bpow radix2 (-15)) (Rabs (Rdiv 1 1000)) /\ Rle (Rabs (Rdiv 1 1000)) (bpow radix2 20) /\ Rle (bpow radix2 (-30)) (Rdiv 1 100) /\ Rle (Rdiv 1 100) (bpow radix2 20).
Proof. exact fine_case. Qed.
