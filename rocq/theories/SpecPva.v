(** Specification of the error dynamics: navigation equations of a vehicle over
    a sphere that matches the ellipsoid at its latitude. *)
From Coq Require Import Reals List.
From Coquelicot Require Import Coquelicot.
From Verif Require Import Base BaseVec SpecRot SpecEarth.
Import ListNotations.
Open Scope R_scope.

(** A 9-vector of three 3-vectors. *)
Definition l9 (u v w : vec3) : list R :=
  [vx u; vy u; vz u; vx v; vy v; vz v; vx w; vy w; vz w].

(** Radii of curvature of the ellipsoid: meridian, prime vertical, and their
    geometric mean (Gauss). *)
Definition earth_e2 : R := earth_f * (2 - earth_f).
Definition earth_w (lat : R) : R := 1 - earth_e2 * (sin lat)^2.
Definition radius_M (lat : R) : R := earth_a * (1 - earth_e2) / (earth_w lat * sqrt (earth_w lat)).
Definition radius_N (lat : R) : R := earth_a / sqrt (earth_w lat).
Definition radius_G (lat : R) : R := earth_a * sqrt (1 - earth_e2) / earth_w lat.

(** Off the poles and away from the depths at which a radius plus h vanishes. *)
Definition ned_regular (lat h : R) : Prop :=
  cos lat <> 0 /\ radius_G lat + h <> 0 /\ radius_M lat + h <> 0 /\ radius_N lat + h <> 0.

(** A 9x9 matrix. *)
Definition size9 (A : MatrixXd) : Prop := mx_rows A = 9%nat /\ mx_cols A = 9%nat.

(** Rate of turn of the NED frame against inertial space, in NED components. *)
Definition w_in (latDot lonDot lat : R) : vec3 :=
  V3 ((lonDot + earth_rate) * cos lat) (- latDot) (- (lonDot + earth_rate) * sin lat).

(** Second derivatives of latitude, longitude and height at radius [rho] + h
    under specific force (a1, a2, a3) and (apparent) gravity [g] at height h. *)
Definition lat_acc (rho a1 latDot lonDot hDot lat h : R) : R :=
  (a1 - 2 * hDot * latDot) / (rho + h) - lonDot * (lonDot + 2 * earth_rate) * sin lat * cos lat.
Definition lon_acc (rho a2 latDot lonDot hDot lat h : R) : R :=
  a2 / ((rho + h) * cos lat) + 2 * (lonDot + earth_rate) * (latDot * tan lat - hDot / (rho + h)).
Definition h_acc (rho a3 latDot lonDot lat h g : R) : R :=
  - a3 - g + (rho + h) * (latDot^2 + lonDot * (lonDot + 2 * earth_rate) * (cos lat)^2).

(** Local north, east and down in a frame in which the longitude is [lon]. *)
Definition north_dir (lat lon : R) : vec3 := V3 (- sin lat * cos lon) (- sin lat * sin lon) (cos lat).
Definition east_dir (lon : R) : vec3 := V3 (- sin lon) (cos lon) 0.
Definition down_dir (lat lon : R) : vec3 := vneg (direction lat lon).
