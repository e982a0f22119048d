(** Theorems C117 to C120: attitude conversions in double arithmetic. *)
From Coq Require Import Reals ZArith List Lra Lia.
From Flocq Require Import Core.
From Verif Require Import Base BaseVec SpecRot SpecFloatOps SpecAttitudeFloat ModelAttitude ModelDate ModelGuardFloat SpecFloat ModelStrapdownFloat ModelFramesFloat ModelAttitudeFloat
  ProofStrapdownFloat ProofStrapdownFloat2 ProofFramesFloat ProofGravityFloat ProofAttitude
  ProofAttitudeFloat3 ProofAttitudeFloat5 ProofAttitudeFloat6.
Import ListNotations.
Open Scope R_scope.

(** C117: the matrix computed with rounding from any quaternion, normalised or
    not, whose squared length is between 2^-900 and 2^1000 moves every vector
    within 30 units of 2^-53 of the exact rotation. *)
Theorem C117_matrix_error : forall F q0 q1 q2 q3 M, float_ok F ->
  bpow radix2 (-900) <= q0 * q0 + q1 * q1 + q2 * q2 + q3 * q3 <= bpow radix2 1000 -> mx_rows M = 3%nat -> mx_cols M = 3%nat ->
  exists A, computeDcmFromQuaternion_f F [q0; q1; q2; q3] M = Ret (true, MX_of_mat3 A) /\ close_to (30 * u64) A (qframe (q0, V3 q1 q2 q3)).
Proof. intros F q0 q1 q2 q3 M HF (N & _). exact (dcm_fn F q0 q1 q2 q3 M HF N). Qed.
Print Assumptions C117_matrix_error.
Theorem C117_exact_arithmetic : forall q M, computeDcmFromQuaternion_f exact_ops q M = computeDcmFromQuaternion q M.
Proof. exact dcm_exact. Qed.
Print Assumptions C117_exact_arithmetic.
(** For smaller quaternions this fails: this one is not zero, yet in binary64
    the result is not a number. *)
Theorem C117_any_nonzero_quaternion_refuted : bpow radix2 (-540) <> 0 /\
  computeDcmFromQuaternion_f binary64_ops [bpow radix2 (-540); 0; 0; 0] (MX 3 3 (fun _ _ => 0)) = NonFinite.
Proof. split; [|exact tiny_quat]. pose proof (bpow_gt_0 radix2 (-540)). lra. Qed.
Print Assumptions C117_any_nonzero_quaternion_refuted.
Example C117_case : float_ok binary64_ops /\ bpow radix2 (-900) <= 2 * 2 + 1 * 1 + -1 * -1 + 3 * 3 <= bpow radix2 1000.
Proof.
  split; [exact binary64_ok|]. replace (2 * 2 + 1 * 1 + -1 * -1 + 3 * 3) with 15 by ring. split.
  - apply Rle_trans with (bpow radix2 0); [apply bpow_le; lia|cbn; lra].
  - apply Rle_trans with (bpow radix2 4); [cbn; lra|apply bpow_le; lia].
Qed.

(** C118: from a matrix whose entries are within k units of 2^-53 of those of a
    rotation, the conversion with rounding recovers the unit quaternion up to
    sign within 14 k + 120 units, if one component of the quaternion is larger
    than the others, in square, by 2 k + 8 units. *)
Theorem C118_quaternion_error : forall F pow2 a b c d k A B q', float_ok F -> pow2_ok pow2 ->
  a * a + b * b + c * c + d * d = 1 -> 0 <= k <= 100000000 ->
  (forall v, mvmul B v = qframe (a, V3 b c d) v) -> entries_within (k * u64) A B ->
  dominant ((2 * k + 8) * u64) [a; b; c; d] -> length q' = 4%nat ->
  exists s q, (s = 1 \/ s = -1) /\ computeQuaternionFromDcm_f F pow2 (MX_of_mat3 A) q' = Ret (true, q) /\
    list_within ((14 * k + 120) * u64) q [s * a; s * b; s * c; s * d].
Proof. exact quat_fn. Qed.
Print Assumptions C118_quaternion_error.
(** To the matrix and back, both with rounding. *)
Theorem C118_round_trip : forall F pow2 a b c d M q', float_ok F -> pow2_ok pow2 ->
  a * a + b * b + c * c + d * d = 1 -> dominant (28 * u64) [a; b; c; d] -> mx_rows M = 3%nat -> mx_cols M = 3%nat -> length q' = 4%nat ->
  exists A s q, computeDcmFromQuaternion_f F [a; b; c; d] M = Ret (true, A) /\ computeQuaternionFromDcm_f F pow2 A q' = Ret (true, q) /\
    (s = 1 \/ s = -1) /\ list_within (260 * u64) q [s * a; s * b; s * c; s * d].
Proof. exact round_trip. Qed.
Print Assumptions C118_round_trip.
(** Without a dominant component it fails: euler2Dcm of a roll of M_PI_2 in
    binary64 is a matrix on which the conversion yields no number. *)
Theorem C118_every_rotation_refuted : exists A, euler2Dcm_f binary64_ops (V3 (rval M_PI_2_64) 0 0) = (true, A) /\
  forall pow2 q, length q = 4%nat -> computeQuaternionFromDcm_f binary64_ops pow2 (MX_of_mat3 A) q = NonFinite.
Proof.
  destruct quarter_turn_lost as (A & E & H). exists A. split; [exact E|]. intros pow2 q L. apply H; auto. now destruct A.
Qed.
Print Assumptions C118_every_rotation_refuted.
Theorem C118_exact_arithmetic : forall M q, computeQuaternionFromDcm_f exact_ops (fun x => x * x) M q = computeQuaternionFromDcm M q.
Proof. exact quat_exact. Qed.
Print Assumptions C118_exact_arithmetic.
Example C118_case : 0.6 * 0.6 + 0.8 * 0.8 + 0 * 0 + 0 * 0 = 1 /\ dominant (28 * u64) [0.6; 0.8; 0; 0] /\
  entries_within (10 * u64) (dcm 0.6 0.8 0 0) (dcm 0.6 0.8 0 0) /\ (forall v, mvmul (dcm 0.6 0.8 0 0) v = qframe (0.6, V3 0.8 0 0) v).
Proof.
  pose proof u64_bounds. split; [lra|]. split; [|split].
  - exists 1%nat. split; [lia|]. intros j Hj Hn. destruct j as [|[|[|[|j]]]]; try lia; cbn [nth]; lra.
  - intros i j _ _. rewrite Rminus_eq_0, Rabs_R0. lra.
  - intros v. apply dcm_qframe. unfold n2. lra.
Qed.

(** C119: if the vector part of the quaternion is between 2e-6 and 0.995 long,
    the rotation vector computed with rounding is finite and within 200 units
    of 2^-53 of the one the exact formula gives; below 9e-7 it is exactly zero. *)
Theorem C119_rotation_vector_error : forall F fasin q0 q1 q2 q3 phi, float_ok F ->
  (forall x, -1 <= x <= 1 -> Rabs (fasin x - asin x) <= 4 * u64) ->
  2 / 1000000 <= norm (V3 q1 q2 q3) <= 995 / 1000 -> length phi = 3%nat ->
  exists p p', computeRotationVecFromQuaternion [q0; q1; q2; q3] phi = Ret (true, p) /\
    computeRotationVecFromQuaternion_f F fasin [q0; q1; q2; q3] phi = Ret (true, p') /\ list_within (200 * u64) p' p.
Proof. exact rotvec_fn. Qed.
Print Assumptions C119_rotation_vector_error.
Theorem C119_small_is_zero : forall F fasin q0 q1 q2 q3 phi, float_ok F -> (forall w, 0 <= fdot F w w) ->
  norm (V3 q1 q2 q3) <= 9 / 10000000 -> length phi = 3%nat ->
  computeRotationVecFromQuaternion_f F fasin [q0; q1; q2; q3] phi = Ret (true, [0; 0; 0]).
Proof. exact rotvec_fn_small. Qed.
Print Assumptions C119_small_is_zero.
(** Close to half a turn it fails.  There is a rotation vector shorter than pi
    whose quaternion, computed by the repository's own function in binary64,
    converts back to no number, whatever the library's arc sine. *)
Theorem C119_half_turn_refuted : exists p0 p1 p2 q, norm (V3 p0 p1 p2) < PI /\
  (forall q', length q' = 4%nat -> computeQuaternionFromRotationVec_f binary64_ops [p0; p1; p2] q' = Ret (true, q)) /\
  forall fasin phi, length phi = 3%nat -> computeRotationVecFromQuaternion_f binary64_ops fasin q phi = NonFinite.
Proof. exact half_turn_lost. Qed.
Print Assumptions C119_half_turn_refuted.
(** And there is an angle below pi for which rounding the exact quaternion to
    doubles and converting it errs by more than 1e-8. *)
Theorem C119_half_turn_accuracy_refuted : exists theta, 0 < theta < PI /\ forall fasin, Rabs (fasin 1 - asin 1) <= 4 * u64 ->
  exists x, computeRotationVecFromQuaternion_f binary64_ops fasin [rnd64 (cos (theta / 2)); rnd64 (sin (theta / 2)); 0; 0] [0; 0; 0] = Ret (true, [x; 0; 0]) /\
    / 100000000 <= Rabs (Rabs x - theta).
Proof. exact half_turn_blunt. Qed.
Print Assumptions C119_half_turn_accuracy_refuted.
Theorem C119_exact_arithmetic : forall q phi, computeRotationVecFromQuaternion_f exact_ops asin q phi = computeRotationVecFromQuaternion q phi.
Proof. exact rotvec_exact. Qed.
Print Assumptions C119_exact_arithmetic.
Example C119_case : (forall x, -1 <= x <= 1 -> Rabs (asin x - asin x) <= 4 * u64) /\ 2 / 1000000 <= norm (V3 0.6 0 0) <= 995 / 1000 /\
  (forall w, 0 <= fdot binary64_ops w w).
Proof.
  split; [|split; [|exact dot64_pos]].
  - intros x _. rewrite Rminus_eq_0, Rabs_R0. pose proof u64_bounds. lra.
  - unfold norm, dot. cbn [vx vy vz]. replace (0.6 * 0.6 + 0 * 0 + 0 * 0) with (0.6 * 0.6) by ring. rewrite sqrt_square; lra.
Qed.

(** C120: the quaternion computed with rounding from a rotation vector between
    2^-400 and 10 long is within 40 units of 2^-53 of the exact one. *)
Theorem C120_rotation_quaternion_error : forall F p0 p1 p2 q0, float_ok F -> bpow radix2 (-400) <= norm (V3 p0 p1 p2) <= 10 -> length q0 = 4%nat ->
  exists q q', computeQuaternionFromRotationVec [p0; p1; p2] q0 = Ret (true, q) /\
    computeQuaternionFromRotationVec_f F [p0; p1; p2] q0 = Ret (true, q') /\ list_within (40 * u64) q' q.
Proof. exact rotquat_fn. Qed.
Print Assumptions C120_rotation_quaternion_error.
(** Not for every nonzero vector: the squares of this one vanish. *)
Theorem C120_any_nonzero_vector_refuted : bpow radix2 (-540) <> 0 /\
  computeQuaternionFromRotationVec_f binary64_ops [bpow radix2 (-540); 0; 0] [0; 0; 0; 0] = NonFinite.
Proof. split; [|exact tiny_rotvec]. pose proof (bpow_gt_0 radix2 (-540)). lra. Qed.
Print Assumptions C120_any_nonzero_vector_refuted.
Theorem C120_exact_arithmetic : forall p q, computeQuaternionFromRotationVec_f exact_ops p q = computeQuaternionFromRotationVec p q.
Proof. exact rotquat_exact. Qed.
Print Assumptions C120_exact_arithmetic.
Example C120_case : bpow radix2 (-400) <= norm (V3 1 2 2) <= 10.
Proof.
  unfold norm, dot. cbn [vx vy vz]. replace (1 * 1 + 2 * 2 + 2 * 2) with (3 * 3) by ring. rewrite sqrt_square by lra.
  split; [|lra]. apply Rle_trans with (bpow radix2 0); [apply bpow_le; lia|cbn; lra].
Qed.
