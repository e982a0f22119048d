(** Theorem C157: fine alignment in double arithmetic, the azimuth update and the
    prediction. *)
From Coq Require Import Reals Lra.
From Flocq Require Import Core.
From mathcomp Require Import all_ssreflect all_algebra.
From Verif Require Import Base BaseMx ModelEigen ModelKalman ModelDate ModelFine ModelFilterFloat ModelUpdateFloat ModelFineFloat SpecFloatOps SpecKalman SpecFine SpecFilterFloat SpecUpdateFloat SpecFineFloat
  ProofFineFloat ProofFineFloat2 ProofFineCase.
Set Implicit Arguments.
Unset Strict Implicit.
Unset Printing Implicit Defensive.
Import GRing.Theory.
Local Open Scope ring_scope.

(** C157: [D] bounds the standard deviations of the states and [T] is that of the
    innovation.  Errors of the azimuth update are about a hundred roundings per
    state of those deviations, however uncertain the states and however precise
    the measurement. *)
Theorem C157_azimuth_update : forall r dot azMeas dtAz azEst sigAz (x x1 : 'cV[R]_8) (P P1 : 'M[R]_8) (D : 'I_8 -> R) T,
  rnd_ok r -> dot_ok dot -> psd P -> (forall i, ordinary (D i)) -> (forall i, Rle (P i i) (Rmult (D i) (D i))) ->
  Rle 0 dtAz -> Rle dtAz (bpow radix2 300) -> ordinary T -> Rplus (P aD aD) (Rmult (Rmult sigAz sigAz) dtAz) = Rmult T T -> Rle (D aD) T ->
  exists (xe xf : 'cV[R]_8) (Pe Pf : 'M[R]_8), fineAlignmentAzimuthUpdate azMeas dtAz azEst sigAz (DV x) (DM P) (DV x1) (DM P1) = Ret (true, (DV xe, DM Pe)) /\
  fineAlignmentAzimuthUpdate_f r dot (inv1_f r) azMeas dtAz azEst sigAz x P = Ret (xf, Pf) /\
  (forall i, Rle (Rabs (Rminus (xf i 0) (xe i 0)))
     (Rmult (Rmult 320 u64) (Rplus (Rplus (Rabs (x i 0)) (Rmult (Rdiv (D i) T) (Rplus (Rplus (Rplus (Rabs azMeas) (Rabs azEst)) (Rabs (x aD 0))) tiny64))) tiny64))) /\
  (forall i j, Rle (Rabs (Rminus (Pf i j) (Pe i j))) (Rmult (Rmult 990 u64) (Rmult (D i) (D j)))).
Proof. exact azimuth_ok. Qed.
Print Assumptions C157_azimuth_update.

(** The prediction: errors are relative to the sizes of the terms. *)
Theorem C157_prediction : forall r dot fsin fcos ftan lat wE g rad,
  rnd_ok r -> dot_ok dot -> lib_ok fsin sin -> lib_ok fcos cos -> lib_ok ftan tan -> rad <> R0 -> cos lat <> R0 ->
  forall (x x1 : 'cV[R]_8) (P P1 : 'M[R]_8), exists (Phi : 'M[R]_8) (xe xf : 'cV[R]_8) (Pe Pf : 'M[R]_8), alignmentPhik lat wE g rad = Ret Phi /\
  fineAlignmentPredict lat wE g rad (DV x) (DM P) (DV x1) (DM P1) = Ret (true, (DV xe, DM Pe)) /\
  fineAlignmentPredict_f r dot fsin fcos ftan lat wE g rad x P = Ret (xf, Pf) /\
  (forall i, Rle (Rabs (Rminus (xf i 0) (xe i 0))) (Rmult (Rmult 36 u64) (size_mul (phi_size wE rad Phi) x i 0))) /\
  (forall i j, Rle (Rabs (Rminus (Pf i j) (Pe i j))) (Rmult (Rmult 99 u64) (size_mul (size_mul (phi_size wE rad Phi) P) (phi_size wE rad Phi)^T i j))).
Proof. exact predict_ok. Qed.
Print Assumptions C157_prediction.

(** Unit variances, azimuth measured as 1 with unit variance. *)
Example C157_case : exists (xf : 'cV[R]_8) (Pf : 'M[R]_8), fineAlignmentAzimuthUpdate_f rnd64 (@dot_loop rnd64) (inv1_f rnd64) 1 1 0 1 0 1%:M = Ret (xf, Pf) /\
  Rle (Rabs (Rminus (xf aD 0) (Rdiv 1 2))) (Rinv 10000000000000) /\ Rle (Rabs (Rminus (Pf aD aD) (Rdiv 1 2))) (Rinv 1000000000000).
Proof. exact az_case. Qed.
(** A body at the equator of an Earth of radius 2 turning at rate 1. *)
Example C157_prediction_case : exists (xf : 'cV[R]_8) (Pf : 'M[R]_8), fineAlignmentPredict_f rnd64 (@dot_loop rnd64) (fun x => rnd64 (sin x)) (fun x => rnd64 (cos x)) (fun x => rnd64 (tan x)) 0 1 9 2 (const_mx R1) 0 = Ret (xf, Pf) /\
  Rle (Rabs (Rplus (xf aN 0) (Rdiv 1 2))) (Rinv 100000000000000).
Proof. exact pr_case. Qed.
