(** Theorems C108 and C109: gravity in double arithmetic. *)
From Coq Require Import Reals Lra.
From Verif Require Import Base BaseVec SpecFloatOps ModelGravity ModelStrapdownFloat ModelFramesFloat ModelGravityFloat
  ProofStrapdownFloat2 ProofFramesFloat ProofGravityFloat.
Open Scope R_scope.

(** C108: up to 1000 km from the ellipsoid, gravity computed with rounding is
    finite and within 2e-13 m/s^2 of the exact formula; its east component is
    exactly zero. *)
Theorem C108_gravity_error : forall F pow2 lat h, float_ok F -> pow2_ok pow2 -> Rabs lat <= PI / 2 -> Rabs h <= 1000000 ->
  exists g g', gravityNed lat h = Ret (true, g) /\ gravityNed_f F pow2 lat h = Ret (true, g') /\
    Rabs (vx g' - vx g) <= 2 / 10000000000000 /\ vy g' = 0 /\ vy g = 0 /\ Rabs (vz g' - vz g) <= 2 / 10000000000000.
Proof. exact gravity_float. Qed.
Print Assumptions C108_gravity_error.
Theorem C108_exact_arithmetic : forall lat h, gravityNed_f exact_ops (fun x => x * x) lat h = gravityNed lat h.
Proof. exact gravity_exact. Qed.
Print Assumptions C108_exact_arithmetic.
Example C108_case : float_ok binary64_ops /\ pow2_ok pow2_64 /\ Rabs (1 / 2) <= PI / 2 /\ Rabs (-430) <= 1000000.
Proof.
  pose proof PI2_1. split; [exact binary64_ok|]. split; [exact pow2_64_ok|].
  rewrite (Rabs_right (1 / 2)), Rabs_left by lra. lra.
Qed.

(** C109: at every distance from 1 km to 10^12 m, the point-mass gravity
    computed with rounding is finite and its error is at most 50 units of 2^-53
    of its size. *)
Theorem C109_point_mass_error : forall F r, float_ok F -> 1000 <= norm r <= 1000000000000 ->
  exists g g', simpleGravity r = Ret (true, g) /\ simpleGravity_f F r = Ret (true, g') /\
    norm (vsub g' g) <= 50 * u64 * norm g.
Proof. exact (fun F r H => simple_float F H r). Qed.
Print Assumptions C109_point_mass_error.
Theorem C109_exact_arithmetic : forall r, simpleGravity_f exact_ops r = simpleGravity r.
Proof. exact simple_exact. Qed.
Print Assumptions C109_exact_arithmetic.
Example C109_case : 1000 <= norm (V3 0 0 (-7000000)) <= 1000000000000.
Proof.
  unfold norm, dot. cbn [vx vy vz]. replace (0 * 0 + 0 * 0 + -7000000 * -7000000) with (7000000 * 7000000) by ring.
  rewrite sqrt_square; lra.
Qed.
