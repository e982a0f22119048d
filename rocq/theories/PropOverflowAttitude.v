(** Theorem C166, continued: conversions from a rotation matrix and from a
    quaternion, rotations between frames, gravity of a point mass. *)
From Coq Require Import Reals ZArith List Lra Lia.
From Flocq Require Import Core IEEE754.Binary.
From Verif Require Import Base BaseVec ModelDate ModelStrapdownFloat ModelFramesFloat ModelGravityFloat ModelAttitudeFloat ModelEulerFloat
  SpecOverflow ProofOverflow14.
Import ListNotations.
Open Scope R_scope.

(** Any matrix with elements up to 2^100, a rotation or not: the square root of
    a positive double is never small enough to overflow its reciprocal. *)
Theorem C166_quaternion_of_matrix_never_overflows : forall r A, binary64_in_range r ->
  (forall x, In x [m11 A; m12 A; m13 A; m21 A; m22 A; m23 A; m31 A; m32 A; m33 A] -> Rabs x <= bpow radix2 100) ->
  quat_of_dcm_f (ops_of r) (fun x => r (x * x)) A = quat_of_dcm_f binary64_ops pow2_64 A.
Proof. exact (fun r A Hr H => quat_of_dcm_same r A Hr (mbd_in _ _ H)). Qed.
Print Assumptions C166_quaternion_of_matrix_never_overflows.

(** Any quaternion with a vector part up to 2^300. *)
Theorem C166_rotation_vector_of_quaternion_never_overflows : forall r q0 q1 q2 q3, binary64_in_range r ->
  Rabs q1 <= bpow radix2 300 -> Rabs q2 <= bpow radix2 300 -> Rabs q3 <= bpow radix2 300 ->
  rotvec_of_quat_f (ops_of r) (fun x => r (asin x)) q0 q1 q2 q3 = rotvec_of_quat_f binary64_ops asin_64 q0 q1 q2 q3.
Proof. exact rotvec_of_quat_same. Qed.
Print Assumptions C166_rotation_vector_of_quaternion_never_overflows.

(** Any matrix with elements up to 2^900: the guard on the divisors is enough. *)
Theorem C166_euler_angles_never_overflow : forall r A e0, binary64_in_range r ->
  (forall x, In x [m11 A; m12 A; m13 A; m21 A; m22 A; m23 A; m31 A; m32 A; m33 A] -> Rabs x <= bpow radix2 900) ->
  dcm2Euler_f (ops_of r) (fun x => r (atan x)) (fun x => r (asin x)) A e0 = dcm2Euler_f binary64_ops atan_64 asin_64 A e0.
Proof. exact (fun r A e0 Hr H => dcm2Euler_same r A e0 Hr (mbd_in _ _ H)). Qed.
Print Assumptions C166_euler_angles_never_overflow.

(** Any two doubles as latitude and longitude. *)
Theorem C166_frame_rotations_never_overflow : forall r lat lon R0, binary64_in_range r ->
  computeREcef2Ned_f (ops_of r) lat lon R0 = computeREcef2Ned_f binary64_ops lat lon R0 /\
  computeRNed2Ecef_f (ops_of r) lat lon R0 = computeRNed2Ecef_f binary64_ops lat lon R0.
Proof. exact (fun r lat lon R0 Hr => conj (ecef2Ned_same r lat lon R0 Hr) (ned2Ecef_same r lat lon R0 Hr)). Qed.
Print Assumptions C166_frame_rotations_never_overflow.

(** Coordinates up to 2^300 metres, one of them at least 2^-200. *)
Theorem C166_simple_gravity_never_overflows : forall r p, binary64_in_range r ->
  (Rabs (vx p) <= bpow radix2 300 /\ Rabs (vy p) <= bpow radix2 300 /\ Rabs (vz p) <= bpow radix2 300) ->
  bpow radix2 (-200) <= Rabs (vx p) \/ bpow radix2 (-200) <= Rabs (vy p) \/ bpow radix2 (-200) <= Rabs (vz p) ->
  simpleGravity_f (ops_of r) p = simpleGravity_f binary64_ops p.
Proof. exact simple_same. Qed.
Print Assumptions C166_simple_gravity_never_overflows.

(** A half turn: the hypotheses hold and the quaternion is computed. *)
Example C166_conversions_case : (forall x, In x [0; 1; 0; -1; 0; 0; 0; 0; 1] -> Rabs x <= bpow radix2 100) /\
  bpow radix2 (-200) <= Rabs (vx (V3 6378137 0 0)) /\ quat_of_dcm_f binary64_ops pow2_64 (M3 (-1) 0 0 0 (-1) 0 0 0 1) <> NonFinite.
Proof. exact conversions_case. Qed.
