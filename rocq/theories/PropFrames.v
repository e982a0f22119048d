(** Theorems C21-C27: ECEF, NED and geodetic conversions (src/util/Rotations.cpp 13-153). *)
From Coq Require Import Reals List Lra Lia.
From Coquelicot Require Import Coquelicot.
From Flocq Require Import IEEE754.Binary IEEE754.Bits.
From Verif Require Import Base BaseVec SpecRot SpecEarth SpecFloat ModelGravity ModelFrames ModelGuardFloat
  ProofPi ProofVec ProofFrames ProofFrames2 ProofFrames3 ProofBowring ProofGuardFloat.
Open Scope R_scope.

(** C21 *)
Theorem C21_ned_matrices_are_inverse_rotations : forall lat lon M M', in_range lat lon ->
  exists A B, computeREcef2Ned lat lon M = (true, A) /\ computeRNed2Ecef lat lon M' = (true, B) /\
    is_rotation A /\ is_rotation B /\ B = mtr A /\ mmul A B = m3id /\ mmul B A = m3id.
Proof. exact ned_rotations. Qed.
Print Assumptions C21_ned_matrices_are_inverse_rotations.
Theorem C21_ned_rows_are_north_east_down : forall lat lon alt M r, inside lat lon -> -6300000 < alt ->
  exists RE2N kN kE, computeREcef2Ned lat lon M = (true, RE2N) /\ 0 < kN /\ 0 < kE /\
    vec_derive (fun l => vec_of (lla2Ecef l lon alt r)) lat (vscale kN (row1 RE2N)) /\
    vec_derive (fun l => vec_of (lla2Ecef lat l alt r)) lon (vscale kE (row2 RE2N)) /\
    vec_derive (fun h => vec_of (lla2Ecef lat lon h r)) alt (vneg (row3 RE2N)).
Proof. exact ned_rows_are_directions. Qed.
Print Assumptions C21_ned_rows_are_north_east_down.
Example C21_case : inside (-(1/2)) 3 /\ in_range (-(1/2)) 3.
Proof.
  assert (A : Rabs (-(1/2)) = 1/2) by (rewrite Rabs_left; lra).
  assert (B : Rabs 3 = 3) by (rewrite Rabs_right; lra).
  pose proof PI2_1; pose proof PI_bounds. unfold inside, in_range. rewrite A, B. lra.
Qed.

(** C22 *)
Theorem C22_range_guards : forall lat lon alt M r,
  (in_range lat lon ->
     fst (computeREcef2Ned lat lon M) = true /\ fst (computeRNed2Ecef lat lon M) = true /\
     exists p, lla2Ecef lat lon alt r = Ret (true, p)) /\
  (~ in_range lat lon ->
     computeREcef2Ned lat lon M = (false, M) /\ computeRNed2Ecef lat lon M = (false, M) /\
     lla2Ecef lat lon alt r = Ret (false, r)).
Proof. exact frame_guards. Qed.
Print Assumptions C22_range_guards.
Theorem C22_float_guard_finite : forall lat lon, finite64 lat -> finite64 lon ->
  (latLonGuard lat lon = true <-> Rabs (rval lat) <= rval M_PI_2_64 /\ Rabs (rval lon) <= rval M_PI64).
Proof. exact guard_finite. Qed.
Print Assumptions C22_float_guard_finite.
(** Doubles that pass are strictly inside the real range. *)
Theorem C22_float_guard_strictly_inside : forall lat lon, finite64 lat -> finite64 lon ->
  latLonGuard lat lon = true -> Rabs (rval lat) < PI/2 /\ Rabs (rval lon) < PI.
Proof. exact guard_implies_range. Qed.
Print Assumptions C22_float_guard_strictly_inside.
Theorem C22_float_guard_infinity : forall s x,
  latLonGuard (inf64 s) x = false /\ latLonGuard x (inf64 s) = false.
Proof. exact guard_infinity. Qed.
Print Assumptions C22_float_guard_infinity.
(** NaN is accepted although no NaN is in range. *)
Theorem C22_nan_rejected_refuted : forall lat lon, nan64 lat -> nan64 lon -> latLonGuard lat lon = true.
Proof. exact guard_accepts_nan. Qed.
Print Assumptions C22_nan_rejected_refuted.
Example C22_case : nan64 (B754_nan 53 1024 false 1 eq_refl) /\ finite64 M_PI_2_64 /\ latLonGuard M_PI_2_64 M_PI64 = true.
Proof. repeat split. Qed.

(** C23 *)
Theorem C23_lla_is_height_along_ellipsoid_normal : forall lat lon alt r, in_range lat lon ->
  exists s k p, lla2Ecef lat lon alt r = Ret (true, p) /\
    on_ellipsoid earth_a earth_b s /\ 0 < k /\
    ellipsoid_grad earth_a earth_b s = vscale k (direction lat lon) /\
    p = vadd s (vscale alt (direction lat lon)).
Proof. exact lla2Ecef_ellipsoid. Qed.
Print Assumptions C23_lla_is_height_along_ellipsoid_normal.
Example C23_case : exists p, lla2Ecef (-(1/2)) 3 100 v3zero = Ret (true, p).
Proof. eexists. apply lla2Ecef_ok. apply C21_case. Qed.

(** C24 *)
Theorem C24_lla2Ecef_injective : forall lat1 lon1 h1 lat2 lon2 h2 r r',
  - (PI/2) < lat1 < PI/2 -> - (PI/2) < lat2 < PI/2 -> - PI < lon1 <= PI -> - PI < lon2 <= PI ->
  - (earth_a * (1 - earth_f)^2) < h1 -> - (earth_a * (1 - earth_f)^2) < h2 ->
  lla2Ecef lat1 lon1 h1 r = lla2Ecef lat2 lon2 h2 r' ->
  lat1 = lat2 /\ lon1 = lon2 /\ h1 = h2.
Proof. exact lla2Ecef_injective. Qed.
Print Assumptions C24_lla2Ecef_injective.
Example C24_case : lla2Ecef (1/2) 1 100 v3zero <> lla2Ecef (1/2) 1 (-6000000) v3zero.
Proof.
  intros E. apply C24_lla2Ecef_injective in E; [destruct E as (_ & _ & E); lra|..];
  pose proof PI2_1; try lra; unfold earth_a, earth_f; lra.
Qed.

(** C25 *)
Theorem C25_ecef2Lla_longitude_in_range : forall r ok lat lon alt,
  ecef2Lla r = Ret (ok, (lat, lon, alt)) -> ok = true /\ - PI < lon <= PI /\
    vx r = sqrt (vx r * vx r + vy r * vy r) * cos lon /\
    vy r = sqrt (vx r * vx r + vy r * vy r) * sin lon.
Proof. exact ecef2Lla_longitude. Qed.
Print Assumptions C25_ecef2Lla_longitude_in_range.
Theorem C25_ecef2Lla_accepted_downstream : forall r M,
  0 < vx r * vx r + vy r * vy r -> 43000 * 43000 <= dot r r ->
  exists lat lon alt, ecef2Lla r = Ret (true, (lat, lon, alt)) /\
    - (PI/2) < lat < PI/2 /\ - PI < lon <= PI /\
    fst (computeREcef2Ned lat lon M) = true /\ fst (computeRNed2Ecef lat lon M) = true /\
    (exists r', lla2Ecef lat lon alt r = Ret (true, r')).
Proof. exact ecef2Lla_accepted. Qed.
Print Assumptions C25_ecef2Lla_accepted_downstream.
Theorem C25_accepted_everywhere_refuted : exists lon alt,
  ecef2Lla (V3 1000 0 0) = Ret (true, (PI, lon, alt)).
Proof. exact ecef2Lla_out_of_range. Qed.
Print Assumptions C25_accepted_everywhere_refuted.
Example C25_case : exists lat lon alt, ecef2Lla (V3 (-4000000) 1 3000000) = Ret (true, (lat, lon, alt)).
Proof.
  destruct (C25_ecef2Lla_accepted_downstream (V3 (-4000000) 1 3000000) m3zero) as (a & b & c & E & _);
  cbn [vx vy]; try (unfold dot; cbn [vx vy vz]; lra). eauto.
Qed.

(** C26 *)
Theorem C26_ecef_round_trip_recovers_xy : forall r r0 lat lon alt,
  ecef2Lla r = Ret (true, (lat, lon, alt)) -> in_range lat lon ->
  exists z, lla2Ecef lat lon alt r0 = Ret (true, V3 (vx r) (vy r) z).
Proof. exact ecef_round_trip_xy. Qed.
Print Assumptions C26_ecef_round_trip_recovers_xy.
Theorem C26_geodetic_round_trip : forall lat lon alt r,
  - (PI/2) < lat < PI/2 -> - PI < lon <= PI -> -100000 <= alt ->
  exists p lat' alt', lla2Ecef lat lon alt r = Ret (true, p) /\
    ecef2Lla p = Ret (true, (lat', lon, alt')) /\
    - (PI/2) < lat' < PI/2 /\
    Rabs (lat' - lat) <= 0.0000002 /\ Rabs (alt' - alt) <= 1 /\
    (alt <= 100000 -> Rabs (lat' - lat) <= 0.0000000001 /\ Rabs (alt' - alt) <= 0.001).
Proof. exact geodetic_round_trip. Qed.
Print Assumptions C26_geodetic_round_trip.
Example C26_case : exists p lat' alt', lla2Ecef 1 (-3) 400000 v3zero = Ret (true, p) /\
    ecef2Lla p = Ret (true, (lat', -3, alt')) /\ Rabs (alt' - 400000) <= 1.
Proof.
  destruct (C26_geodetic_round_trip 1 (-3) 400000 v3zero) as (p & l & a & H1 & H2 & _ & _ & H3 & _);
  pose proof PI2_1; pose proof PI_bounds; try lra. eauto 6.
Qed.

(** C27: on the polar axis the altitude is never |z| - b: with the exact cosine
    there is no finite result, with any other value for cos(lat) the altitude is
    below -6378 km. *)
Theorem C27_polar_altitude_refuted : forall cosf z, z <> 0 ->
  ecef2Lla_with cosf (V3 0 0 z) = NonFinite \/
  exists lat lon alt, ecef2Lla_with cosf (V3 0 0 z) = Ret (true, (lat, lon, alt)) /\ alt <= - 6378137.
Proof. exact ecef2Lla_poles. Qed.
Print Assumptions C27_polar_altitude_refuted.
Theorem C27_polar_axis_exact_cosine : forall z, z <> 0 -> ecef2Lla (V3 0 0 z) = NonFinite.
Proof. exact ecef2Lla_poles_exact. Qed.
Print Assumptions C27_polar_axis_exact_cosine.
Example C27_case : ecef2Lla (V3 0 0 6400000) = NonFinite.
Proof. apply C27_polar_axis_exact_cosine. lra. Qed.
