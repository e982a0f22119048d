(** Theorem C166, continued: positions to latitude, longitude and altitude,
    quaternions of rotation vectors, coarse alignment. *)
From Coq Require Import Reals ZArith Lra Lia.
From Flocq Require Import Core.
From Verif Require Import Base BaseVec ModelDate ModelStrapdownFloat ModelFramesFloat ModelAttitudeFloat ModelCoarseFloat ModelLlaFloat
  SpecOverflow ProofVec ProofOverflow12 ProofOverflow13.
Open Scope R_scope.

(** Coordinates up to 2^400 metres, the poles and the centre of the Earth
    included: no double has a cosine small enough to overflow the altitude. *)
Theorem C166_ecef2Lla_never_overflows : forall r rE, binary64_in_range r ->
  (Rabs (vx rE) <= bpow radix2 400 /\ Rabs (vy rE) <= bpow radix2 400 /\ Rabs (vz rE) <= bpow radix2 400) ->
  ecef2Lla_f (ops_of r) (fun x => r (x * x)) (fun x => r (x * x * x)) (fun y x => r (atan2 y x)) rE =
  ecef2Lla_f binary64_ops pow2_64 pow3_64 atan2_64 rE.
Proof. exact ecef_same. Qed.
Print Assumptions C166_ecef2Lla_never_overflows.

(** Rotation vectors of length at least 2^-480 with elements up to 2^400. *)
Theorem C166_rotation_vector_never_overflows : forall r p0 p1 p2, binary64_in_range r -> bpow radix2 (-480) <= norm (V3 p0 p1 p2) ->
  Rabs p0 <= bpow radix2 400 -> Rabs p1 <= bpow radix2 400 -> Rabs p2 <= bpow radix2 400 ->
  quat_of_rotvec_f (ops_of r) p0 p1 p2 = quat_of_rotvec_f binary64_ops p0 p1 p2.
Proof. exact rotvec_same. Qed.
Print Assumptions C166_rotation_vector_never_overflows.

(** Measurements up to 2^150, the rounded cosine of the latitude at least
    2^-100, the rotation rate of the Earth within 2^50 and gravity within 2^10
    of one unit. *)
Theorem C166_coarse_alignment_never_overflows : forall r lat wE g aB w, binary64_in_range r -> bpow radix2 (-100) <= Rabs (rnd64 (cos lat)) ->
  bpow radix2 (-50) <= Rabs wE <= bpow radix2 50 -> bpow radix2 (-10) <= Rabs g <= bpow radix2 10 ->
  (Rabs (vx aB) <= bpow radix2 150 /\ Rabs (vy aB) <= bpow radix2 150 /\ Rabs (vz aB) <= bpow radix2 150) ->
  (Rabs (vx w) <= bpow radix2 150 /\ Rabs (vy w) <= bpow radix2 150 /\ Rabs (vz w) <= bpow radix2 150) ->
  coarseAttitudeAlignment_f (ops_of r) lat wE g aB w = coarseAttitudeAlignment_f binary64_ops lat wE g aB w.
Proof. exact coarse_same. Qed.
Print Assumptions C166_coarse_alignment_never_overflows.

Example C166_frames_case : Rabs 6378137 <= bpow radix2 400 /\ bpow radix2 (-480) <= norm (V3 0 0 1) /\ bpow radix2 (-100) <= Rabs (rnd64 (cos 0)) /\
  bpow radix2 (-50) <= Rabs (7 / 100000) <= bpow radix2 50 /\ bpow radix2 (-10) <= Rabs (98 / 10) <= bpow radix2 10.
Proof. exact frames_case. Qed.
