(** Theorem C140: geodetic coordinates in double arithmetic. *)
From Coq Require Import Reals ZArith Lra Lia.
From Flocq Require Import Core IEEE754.Binary.
From Verif Require Import Base BaseVec SpecRot SpecFloat ModelFrames ModelDate ModelGuardFloat ModelStrapdownFloat ModelFramesFloat ModelLlaFloat
  SpecFloatOps SpecLlaFloat ProofStrapdownFloat2 ProofFramesFloat ProofLlaFloat ProofLlaFloat2 ProofLlaPole.
Open Scope R_scope.

(** C140: up to 10,000 km high and at least one degree from the poles, rounding
    changes the latitude by less than 10^-14 rad and the altitude by less than
    ten micrometres; the longitude is right up to the choice between pi and -pi
    on the 180-degree meridian. *)
Theorem C140_coordinate_errors : forall F pow2 pow3 atan2_f rE, float_ok F -> pow2_ok pow2 -> pow3_ok pow3 -> atan2_ok F atan2_f ->
  6300000 <= norm rE <= 16500000 -> norm rE <= 60 * sqrt (vx rE * vx rE + vy rE * vy rE) ->
  exists lat lon alt lat' lon' alt' k, ecef2Lla rE = Ret (true, (lat, lon, alt)) /\
    ecef2Lla_f F pow2 pow3 atan2_f rE = Ret (true, (lat', lon', alt')) /\
    Rabs (lat' - lat) <= 8 / 1000000000000000 /\ Rabs (alt' - alt) <= 1 / 100000 /\
    Rabs (lon' - (lon + 2 * PI * k)) <= 5 / 10000000000000000 /\ (k = 0 \/ k = -1 /\ vy rE = 0 /\ vx rE < 0).
Proof. exact lla_float_close. Qed.
Print Assumptions C140_coordinate_errors.
(** The two conversions in turn, in doubles, against the exact ones. *)
Theorem C140_there_and_back : forall F pow2 pow3 atan2_f rE r0 lat64 lon64 alt', float_ok F -> pow2_ok pow2 -> pow3_ok pow3 -> atan2_ok F atan2_f ->
  frnd F PI = rval M_PI64 -> 6300000 <= norm rE <= 16100000 -> norm rE <= 60 * sqrt (vx rE * vx rE + vy rE * vy rE) ->
  finite64 lat64 -> finite64 lon64 -> ecef2Lla_f F pow2 pow3 atan2_f rE = Ret (true, (rval lat64, rval lon64, alt')) ->
  exists lat lon alt p p', ecef2Lla rE = Ret (true, (lat, lon, alt)) /\ lla2Ecef lat lon alt r0 = Ret (true, p) /\
    lla2Ecef_f F pow2 lat64 lon64 alt' r0 = Ret (true, p') /\ norm (vsub p' p) <= 2 / 100000.
Proof. exact lla_there_and_back. Qed.
Print Assumptions C140_there_and_back.
(** Near the surface the range check accepts the computed coordinates, and they
    lead back to within 2.1 millimetres of the point. *)
Theorem C140_round_trip : forall F pow2 pow3 atan2_f rE r0 lat64 lon64 alt', float_ok F -> pow2_ok pow2 -> pow3_ok pow3 -> atan2_ok F atan2_f ->
  frnd F PI = rval M_PI64 -> 6300000 <= norm rE <= 6450000 -> norm rE <= 60 * sqrt (vx rE * vx rE + vy rE * vy rE) ->
  finite64 lat64 -> finite64 lon64 -> ecef2Lla_f F pow2 pow3 atan2_f rE = Ret (true, (rval lat64, rval lon64, alt')) ->
  exists p', lla2Ecef_f F pow2 lat64 lon64 alt' r0 = Ret (true, p') /\ norm (vsub p' rE) <= 21 / 10000.
Proof. exact lla_round_trip. Qed.
Print Assumptions C140_round_trip.
(** Without the distance from the poles: one millimetre from the axis the
    altitude is more than three metres off, with every operation, sine and
    cosine correctly rounded and whatever atan2 returns, as long as it returns
    doubles. *)
Theorem C140_all_latitudes_refuted : let rE := V3 (4611728665434404 / 4611686018427387904) 0 6400000 in
  forall atan2_f, atan2_ok binary64_ops atan2_f -> (forall y x, generic_format radix2 (FLT_exp (-1074) 53) (atan2_f y x)) ->
  exists lat lon alt lat' lon' alt', ecef2Lla rE = Ret (true, (lat, lon, alt)) /\
    ecef2Lla_f binary64_ops pow2_64 pow3_64 atan2_f rE = Ret (true, (lat', lon', alt')) /\ 3 < Rabs (alt' - alt).
Proof. exact metres_off_all. Qed.
Print Assumptions C140_all_latitudes_refuted.
(** The hypotheses hold for binary64; the model reduces to the exact one. *)
Theorem C140_binary64_meets_the_model : pow3_ok pow3_64 /\ atan2_ok binary64_ops atan2_64 /\ frnd binary64_ops PI = rval M_PI64 /\
  (forall y x, generic_format radix2 (FLT_exp (-1074) 53) (atan2_64 y x)) /\
  generic_format radix2 (FLT_exp (-1074) 53) (4611728665434404 / 4611686018427387904).
Proof. exact lla_binary64. Qed.
Print Assumptions C140_binary64_meets_the_model.
Theorem C140_exact_arithmetic : forall rE,
  ecef2Lla_f exact_ops (fun x => x * x) (fun x => x * x * x) atan2 rE = ecef2Lla rE.
Proof. exact lla_exact. Qed.
Print Assumptions C140_exact_arithmetic.

(** In binary64 a point near the 180-degree meridian goes there and back. *)
Example C140_case : exists lat64 lon64 alt' p', finite64 lat64 /\ finite64 lon64 /\
  ecef2Lla_f binary64_ops pow2_64 pow3_64 atan2_64 (V3 (-3840000) 1 5120000) = Ret (true, (rval lat64, rval lon64, alt')) /\
  lla2Ecef_f binary64_ops pow2_64 lat64 lon64 alt' v3zero = Ret (true, p') /\ norm (vsub p' (V3 (-3840000) 1 5120000)) <= 21 / 10000.
Proof. exact lla_case. Qed.
