(** Specification vocabulary for the Earth-related properties; independent of
    the models. *)
From Coq Require Import Reals List.
From Coquelicot Require Import Coquelicot.
From Verif Require Import Base BaseVec.
Import ListNotations.
Open Scope R_scope.

(** The vector, or matrix, a call reports as valid (zero when it does not). *)
Definition vec_of (o : outcome (bool * vec3)) : vec3 :=
  match o with Ret (true, v) => v | _ => v3zero end.
Definition down (o : outcome (bool * vec3)) : R := vz (vec_of o).
Definition north (o : outcome (bool * vec3)) : R := vx (vec_of o).
Definition mat_of (o : bool * mat3) : mat3 :=
  match o with (true, A) => A | _ => m3zero end.

(** Reference ellipsoid: equatorial radius and flattening. *)
Definition earth_a : R := 6378137.
Definition earth_f : R := 1 / (298257222101 / 1000000000).
Definition earth_b : R := earth_a * (1 - earth_f).
(** Earth rotation rate, rad/s. *)
Definition earth_rate : R := 7292115 / 100000000000.

(** The ellipsoid of revolution with semi-axes a, a, b as a set. *)
Definition on_ellipsoid (a b : R) (s : vec3) : Prop :=
  (vx s / a)^2 + (vy s / a)^2 + (vz s / b)^2 = 1.
(** Half the gradient of its defining polynomial: the direction of the outward
    normal at a point of the surface. *)
Definition ellipsoid_grad (a b : R) (s : vec3) : vec3 :=
  V3 (vx s / a^2) (vy s / a^2) (vz s / b^2).
(** Unit vector of geodetic latitude [lat] and longitude [lon]. *)
Definition direction (lat lon : R) : vec3 :=
  V3 (cos lat * cos lon) (cos lat * sin lon) (sin lat).

(** Derivative of a curve of vectors or of matrices. *)
Definition vec_derive (c : R -> vec3) (t : R) (d : vec3) : Prop :=
  is_derive (fun t => vx (c t)) t (vx d) /\
  is_derive (fun t => vy (c t)) t (vy d) /\
  is_derive (fun t => vz (c t)) t (vz d).
Definition mat_derive (c : R -> mat3) (t : R) (d : mat3) : Prop :=
  vec_derive (fun t => row1 (c t)) t (row1 d) /\
  vec_derive (fun t => row2 (c t)) t (row2 d) /\
  vec_derive (fun t => row3 (c t)) t (row3 d).

(** Latitude and longitude in the closed range accepted by the API; strictly
    inside it. *)
Definition in_range (lat lon : R) : Prop := Rabs lat <= PI/2 /\ Rabs lon <= PI.
Definition inside (lat lon : R) : Prop := Rabs lat < PI/2 /\ Rabs lon < PI.

(** Classical fourth-order Runge-Kutta method, given by its Butcher tableau, for
    an autonomous field [F] on a space with addition and scaling. *)
Definition rk4_spec {Y : Type} (add : Y -> Y -> Y) (scale : R -> Y -> Y)
  (F : Y -> outcome Y) (h : R) (y y' : Y) : Prop :=
  exists k1 k2 k3 k4,
    F y = Ret k1 /\
    F (add y (scale (h * (1/2)) k1)) = Ret k2 /\
    F (add y (scale (h * (1/2)) k2)) = Ret k3 /\
    F (add y (scale (h * 1) k3)) = Ret k4 /\
    y' = add y (scale (h / 6) (add (add (add k1 (scale 2 k2)) (scale 2 k3)) k4)).

(** A navigation state: position (lat, lon, h) and velocity (vN, vE, vD), its
    vector form, and the symmetries of the Earth model. *)
Definition s6list (y : vec3 * vec3) : VectorXd :=
  [vx (fst y); vy (fst y); vz (fst y); vx (snd y); vy (snd y); vz (snd y)].
(** Componentwise addition and scaling. *)
Definition padd (y z : vec3 * vec3) : vec3 * vec3 := (vadd (fst y) (fst z), vadd (snd y) (snd z)).
Definition pscale (k : R) (y : vec3 * vec3) : vec3 * vec3 := (vscale k (fst y), vscale k (snd y)).
(** Shift in longitude; reflection in the equatorial plane. *)
Definition shift (k : R) (y : vec3 * vec3) : vec3 * vec3 := (V3 (vx (fst y)) (vy (fst y) + k) (vz (fst y)), snd y).
Definition mirrorv (v : vec3) : vec3 := V3 (- vx v) (vy v) (vz v).
Definition mirror (y : vec3 * vec3) : vec3 * vec3 := (mirrorv (fst y), mirrorv (snd y)).
