(** Theorems C106 and C107: positions and navigation frames in double
    arithmetic. *)
From Coq Require Import Reals ZArith List Lra Lia.
From Flocq Require Import Core IEEE754.Binary IEEE754.Bits.
From Verif Require Import Base BaseVec SpecRot SpecEarth SpecFloat ModelFrames ModelGuardFloat ModelStrapdownFloat ModelFramesFloat
  SpecFloatOps ProofStrapdownFloat2 ProofFramesFloat.
Open Scope R_scope.

(** C106: for doubles that pass the range check, and altitudes up to 10,000 km,
    the position computed with rounding is finite and within 0.2 micrometres of
    the point at height [alt] on the ellipsoid normal. *)
Theorem C106_position_error : forall F pow2 lat lon alt rE, float_ok F -> pow2_ok pow2 -> finite64 lat -> finite64 lon ->
  latLonGuard lat lon = true -> Rabs alt <= 10000000 ->
  exists s k p, on_ellipsoid earth_a earth_b s /\ 0 < k /\
    ellipsoid_grad earth_a earth_b s = vscale k (direction (rval lat) (rval lon)) /\
    lla2Ecef_f F pow2 lat lon alt rE = Ret (true, p) /\
    norm (vsub p (vadd s (vscale alt (direction (rval lat) (rval lon))))) <= 2 / 10000000.
Proof. exact lla_float_ellipsoid. Qed.
Print Assumptions C106_position_error.
(** Each coordinate is within 0.1 micrometres of the exact computation. *)
Theorem C106_coordinate_errors : forall F pow2 lat lon alt rE, float_ok F -> pow2_ok pow2 -> finite64 lat -> finite64 lon ->
  latLonGuard lat lon = true -> Rabs alt <= 10000000 ->
  exists p p', lla2Ecef (rval lat) (rval lon) alt rE = Ret (true, p) /\
    lla2Ecef_f F pow2 lat lon alt rE = Ret (true, p') /\
    Rabs (vx p' - vx p) <= 1 / 10000000 /\ Rabs (vy p' - vy p) <= 1 / 10000000 /\ Rabs (vz p' - vz p) <= 1 / 10000000.
Proof. exact lla_float. Qed.
Print Assumptions C106_coordinate_errors.
Theorem C106_rejected_leaves_output : forall F pow2 lat lon alt rE, latLonGuard lat lon = false ->
  lla2Ecef_f F pow2 lat lon alt rE = Ret (false, rE).
Proof. exact lla_float_reject. Qed.
Print Assumptions C106_rejected_leaves_output.
(** The error model is satisfiable, and the model reduces to the exact one. *)
Theorem C106_binary64_meets_the_model : float_ok binary64_ops /\ pow2_ok pow2_64.
Proof. exact (conj binary64_ok pow2_64_ok). Qed.
Print Assumptions C106_binary64_meets_the_model.
Theorem C106_exact_arithmetic : forall lat lon alt rE M, finite64 lat -> finite64 lon -> latLonGuard lat lon = true ->
  lla2Ecef_f exact_ops (fun x => x * x) lat lon alt rE = lla2Ecef (rval lat) (rval lon) alt rE /\
  computeREcef2Ned_f exact_ops lat lon M = computeREcef2Ned (rval lat) (rval lon) M /\
  computeRNed2Ecef_f exact_ops lat lon M = computeRNed2Ecef (rval lat) (rval lon) M.
Proof. exact frames_exact. Qed.
Print Assumptions C106_exact_arithmetic.

(** The pole, at the doubles nearest to the ends of the range. *)
Example C106_case : finite64 M_PI_2_64 /\ finite64 M_PI64 /\ latLonGuard M_PI_2_64 M_PI64 = true /\ Rabs (-430) <= 10000000.
Proof. repeat split. rewrite Rabs_left; lra. Qed.

(** C107: with rounding, the two navigation frame matrices are exact transposes
    of each other, and each maps every vector within 21 units of 2^-53 of its
    length of where the exact rotation maps it. *)
Theorem C107_ned_matrices_nearly_rotations : forall F lat lon M0 M1, float_ok F -> finite64 lat -> finite64 lon ->
  latLonGuard lat lon = true ->
  exists A B M, computeREcef2Ned_f F lat lon M0 = (true, A) /\ computeRNed2Ecef_f F lat lon M1 = (true, B) /\
    computeREcef2Ned (rval lat) (rval lon) M0 = (true, M) /\
    B = mtr A /\ close_to (21 * u64) A (mvmul M) /\ close_to (21 * u64) B (mvmul (mtr M)).
Proof. exact ned_float. Qed.
Print Assumptions C107_ned_matrices_nearly_rotations.
(** Hence lengths are kept, and a round trip returns the vector. *)
Theorem C107_ned_round_trip : forall F lat lon M0 M1, float_ok F -> finite64 lat -> finite64 lon -> latLonGuard lat lon = true ->
  exists A B, computeREcef2Ned_f F lat lon M0 = (true, A) /\ computeRNed2Ecef_f F lat lon M1 = (true, B) /\
    forall v, norm (vsub (mvmul B (mvmul A v)) v) <= 43 * u64 * norm v /\
              Rabs (norm (mvmul A v) - norm v) <= 21 * u64 * norm v.
Proof. exact ned_round_trip. Qed.
Print Assumptions C107_ned_round_trip.
Theorem C107_rejected_leaves_output : forall F lat lon M0, latLonGuard lat lon = false ->
  computeREcef2Ned_f F lat lon M0 = (false, M0) /\ computeRNed2Ecef_f F lat lon M0 = (false, M0).
Proof. exact ned_float_reject. Qed.
Print Assumptions C107_rejected_leaves_output.
Example C107_case : exists lat lon, finite64 lat /\ finite64 lon /\ latLonGuard lat lon = true /\ float_ok binary64_ops.
Proof. exists M_PI_2_64, M_PI64. repeat split; apply binary64_ok. Qed.
