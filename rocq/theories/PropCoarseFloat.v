(** Theorem C142: coarse alignment in double arithmetic. *)
From Coq Require Import Reals ZArith Lra.
From Flocq Require Import Core.
From Verif Require Import Base BaseVec SpecRot SpecCoarse ModelCoarse ModelStrapdownFloat ModelCoarseFloat SpecFloatOps SpecEulerFloat ProofVec
  ProofStrapdownFloat2 ProofCoarseFloat.
Open Scope R_scope.

(** C142: whatever the sensors read, up to twice gravity and twice the Earth
    rate, rounding moves every entry of the matrix by at most 115 units of 2^-53
    over the square of the cosine of the latitude. *)
Theorem C142_rounding_error : forall F lat wE g a w, float_ok F -> 1 / 1000 <= cos lat -> 1 <= g <= 100 -> 1 / 1000000 <= wE <= 1 ->
  norm a <= 2 * g -> norm w <= 2 * wE ->
  exists R0 R', coarseAttitudeAlignment lat wE g a w = Ret (true, R0) /\ coarseAttitudeAlignment_f F lat wE g a w = Ret (true, R') /\
    entries_within (115 * u64 / (cos lat * cos lat)) R' R0.
Proof. exact coarse_close. Qed.
Print Assumptions C142_rounding_error.
(** From the sensor values of a vehicle at rest the true attitude is returned
    with that error. *)
Theorem C142_true_attitude : forall F lat wE g Rm, float_ok F -> 1 / 1000 <= cos lat -> 1 <= g <= 100 -> 1 / 1000000 <= wE <= 1 -> is_rotation Rm ->
  exists R', coarseAttitudeAlignment_f F lat wE g (mvmul (mtr Rm) (rest_force g)) (mvmul (mtr Rm) (earth_rate wE lat)) = Ret (true, R') /\
    entries_within (115 * u64 / (cos lat * cos lat)) R' Rm.
Proof. exact coarse_aligned. Qed.
Print Assumptions C142_true_attitude.
Theorem C142_exact_arithmetic : forall lat wE g a w, coarseAttitudeAlignment_f exact_ops lat wE g a w = coarseAttitudeAlignment lat wE g a w.
Proof. exact coarse_exact. Qed.
Print Assumptions C142_exact_arithmetic.

(** Sixty degrees north, axes along north, east and down. *)
Example C142_case : exists R', coarseAttitudeAlignment_f binary64_ops (PI / 3) (7292115 / 100000000000) (981 / 100)
    (mvmul (mtr m3id) (rest_force (981 / 100))) (mvmul (mtr m3id) (earth_rate (7292115 / 100000000000) (PI / 3))) = Ret (true, R') /\
  entries_within (460 * u64) R' m3id.
Proof.
  destruct (C142_true_attitude binary64_ops (PI / 3) (7292115 / 100000000000) (981 / 100) m3id binary64_ok) as (R' & E & N); try lra.
  - rewrite cos_PI3. lra.
  - apply rotation_id.
  - exists R'. split; [exact E|]. rewrite cos_PI3 in N. replace (115 * u64 / (1 / 2 * (1 / 2))) with (460 * u64) in N by field. exact N.
Qed.
