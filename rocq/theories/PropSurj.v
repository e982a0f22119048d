(** Theorems C110: geodetic coordinates exist, and the round trip from ECEF. *)
From Coq Require Import Reals Lra.
From Verif Require Import Base BaseVec SpecEarth ModelFrames ProofSurj.
Open Scope R_scope.

(** C110: every point at least 50 km from the centre is the image of a latitude
    and longitude in range and of an altitude above the centre of curvature. *)
Theorem C110_every_point_has_coordinates : forall p r, 50000 <= norm p -> exists lat lon alt,
  Rabs lat <= PI / 2 /\ - PI < lon <= PI /\ - (earth_a * (1 - earth_f)^2) < alt /\ lla2Ecef lat lon alt r = Ret (true, p).
Proof. exact lla2Ecef_surjective. Qed.
Print Assumptions C110_every_point_has_coordinates.
(** Off the polar axis they are unique. *)
Theorem C110_coordinates_unique : forall p r, 50000 <= norm p -> 0 < vx p * vx p + vy p * vy p ->
  exists! g : R * R * R, let '(lat, lon, alt) := g in
    - (PI / 2) < lat < PI / 2 /\ - PI < lon <= PI /\ - (earth_a * (1 - earth_f)^2) < alt /\ lla2Ecef lat lon alt r = Ret (true, p).
Proof. exact geodetic_unique. Qed.
Print Assumptions C110_coordinates_unique.
(** Near the surface ecef2Lla finds them: back in ECEF the point has moved by
    less than two millimetres. *)
Theorem C110_ecef_round_trip : forall p r, 0 < vx p * vx p + vy p * vy p -> 6300000 <= norm p <= 6450000 ->
  exists lat lon alt p', ecef2Lla p = Ret (true, (lat, lon, alt)) /\ - (PI / 2) < lat < PI / 2 /\ - PI < lon <= PI /\
    lla2Ecef lat lon alt r = Ret (true, p') /\ norm (vsub p' p) <= 2 / 1000.
Proof. exact ecef_round_trip. Qed.
Print Assumptions C110_ecef_round_trip.
(** A point on the 180-degree meridian, 6400 km from the centre. *)
Example C110_case : exists lat lon alt p', ecef2Lla (V3 (-3840000) 0 5120000) = Ret (true, (lat, lon, alt)) /\
  lla2Ecef lat lon alt v3zero = Ret (true, p') /\ norm (vsub p' (V3 (-3840000) 0 5120000)) <= 2 / 1000.
Proof.
  destruct (C110_ecef_round_trip (V3 (-3840000) 0 5120000) v3zero) as (lat & lon & alt & p' & E & _ & _ & F & B).
  - cbn [vx vy vz]. lra.
  - unfold norm, dot. cbn [vx vy vz]. replace (-3840000 * -3840000 + 0 * 0 + 5120000 * 5120000) with (6400000 * 6400000) by ring.
    rewrite sqrt_square; lra.
  - exists lat, lon, alt, p'. auto.
Qed.
