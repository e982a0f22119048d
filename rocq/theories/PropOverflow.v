(** Theorem C166: in the ranges of the float theorems no operation overflows. *)
From Coq Require Import Reals ZArith List Lra Lia.
From Flocq Require Import Core IEEE754.Binary IEEE754.Bits.
From Verif Require Import Base BaseVec SpecRot ModelDate ModelStrapdownFloat ModelFramesFloat ModelGravityFloat ModelAttitudeFloat
  SpecFloatOps ModelCompensator ModelCompFloat SpecOverflow ProofVec ProofAttitude ProofStrapdownFloat ProofOverflow ProofOverflow2 ProofOverflow3 ProofOverflow5 ProofOverflow8.
Import ListNotations.
Open Scope R_scope.

(** Attitude: the whole run of updates allowed by C103. *)
Theorem C166_attitude_never_overflows : forall r A0 l, binary64_in_range r -> is_rotation A0 ->
  (forall d, In d l -> bpow radix2 (-480) <= norm d <= 4) -> 2100 * u64 * INR (length l) <= 1 ->
  attitude_f (ops_of r) A0 l = attitude_f binary64_ops A0 l.
Proof. exact rotation_chain_same. Qed.
Print Assumptions C166_attitude_never_overflows.
Theorem C166_initialize_then_update_never_overflows : forall r rph l, binary64_in_range r ->
  (forall d, In d l -> bpow radix2 (-480) <= norm d <= 4) -> 2100 * u64 * (INR (length l) + 1) <= 1 ->
  attitude_f (ops_of r) (snd (euler2Dcm_f (ops_of r) rph)) l = attitude_f binary64_ops (snd (euler2Dcm_f binary64_ops rph)) l.
Proof. exact init_chain_same. Qed.
Print Assumptions C166_initialize_then_update_never_overflows.

(** Quaternion to matrix: elements up to 2^300, one of them at least 2^-200. *)
Theorem C166_quaternion_never_overflows : forall r q0 q1 q2 q3, binary64_in_range r ->
  Rabs q0 <= bpow radix2 300 -> Rabs q1 <= bpow radix2 300 -> Rabs q2 <= bpow radix2 300 -> Rabs q3 <= bpow radix2 300 ->
  (bpow radix2 (-200) <= Rabs q0 \/ bpow radix2 (-200) <= Rabs q1 \/ bpow radix2 (-200) <= Rabs q2 \/ bpow radix2 (-200) <= Rabs q3) ->
  dcm_entries_f (ops_of r) q0 q1 q2 q3 = dcm_entries_f binary64_ops q0 q1 q2 q3.
Proof. exact quat_same. Qed.
Print Assumptions C166_quaternion_never_overflows.

(** Position: any latitude and longitude, altitude up to 2^1000 metres. *)
Theorem C166_position_never_overflows : forall r lat lon alt rE, binary64_in_range r -> Rabs alt <= bpow radix2 1000 ->
  lla2Ecef_f (ops_of r) (fun x => r (x * x)) lat lon alt rE = lla2Ecef_f binary64_ops pow2_64 lat lon alt rE.
Proof. exact lla_same. Qed.
Print Assumptions C166_position_never_overflows.

(** Gravity: height up to 2^400 metres. *)
Theorem C166_gravity_never_overflows : forall r lat h, binary64_in_range r -> Rabs lat <= bpow radix2 1000 -> Rabs h <= bpow radix2 400 ->
  gravityNed_f (ops_of r) (fun x => r (x * x)) lat h = gravityNed_f binary64_ops pow2_64 lat h.
Proof. exact gravity_same. Qed.
Print Assumptions C166_gravity_never_overflows.

(** The test for overflow is not empty.  The quaternion (2^512, 0, 0, 0), a
    multiple of the identity, overflows: the result depends on what the square
    becomes. *)
Theorem C166_large_quaternion_overflows : exists r, binary64_in_range r /\
  dcm_entries_f (ops_of r) (bpow radix2 512) 0 0 0 = NonFinite /\
  dcm_entries_f binary64_ops (bpow radix2 512) 0 0 0 = Ret m3id.
Proof. exact large_quaternion. Qed.
Print Assumptions C166_large_quaternion_overflows.
Example C166_case : binary64_in_range rnd64 /\ is_rotation m3id /\ bpow radix2 (-480) <= norm (V3 0 0 1) <= 4 /\
  2100 * u64 * INR 1 <= 1 /\ Rabs 10000000 <= bpow radix2 400.
Proof. exact overflow_case. Qed.

(** Compensation: errors and measurement up to 2^200, each kind of outcome. *)
Theorem C166_compensation_never_overflows : forall r c meas t, binary64_in_range r ->
  (forall e, In e [accel c; gyro c] -> (forall v x, e_b e = Some v \/ e_sf e = Some v -> In x [vx v; vy v; vz v] -> Rabs x <= bpow radix2 200) /\
    forall x, In x (e_m e) -> Rabs x <= bpow radix2 200) ->
  (forall x, In x [vx meas; vy meas; vz meas] -> Rabs x <= bpow radix2 200) ->
  compensateMeasurement_f (ops_of r) c meas t = compensateMeasurement_f binary64_ops c meas t.
Proof. exact comp_same'. Qed.
Print Assumptions C166_compensation_never_overflows.
Example C166_compensation_case : let c := Comp (Err (Some (V3 (1/4) (1/8) 0)) [0; 0; 1/16; 0; 0; 0] (Some (V3 1 1 1))) (Err None [] None) in
  forall e, In e [accel c; gyro c] -> (forall v x, e_b e = Some v \/ e_sf e = Some v -> In x [vx v; vy v; vz v] -> Rabs x <= bpow radix2 200) /\
    forall x, In x (e_m e) -> Rabs x <= bpow radix2 200.
Proof. exact comp_case. Qed.
