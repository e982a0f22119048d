(** Theorems C123 and C124: the navigation equations in inertial space. *)
From Coq Require Import Reals Lra.
From Coquelicot Require Import Coquelicot.
From Verif Require Import Base BaseVec SpecEarth SpecPva2 ModelNavUtils ModelFrames ProofNewton.
Open Scope R_scope.

(** C123: a trajectory that follows the rates of the strapdown dynamics, turned
    with the Earth into inertial axes, has as second derivative the sensed
    acceleration plus gravity, less the centrifugal part that the gravity model
    contains. *)
Theorem C123_newton_in_inertial_space : forall lat lon h v dVN gN dt t0 t1 r M,
  (forall t, t0 < t < t1 -> inside (lat t) (lon t) /\ exists p' v',
    strapdownDynamics (V3 (lat t) (lon t) (h t), v t) (dVN t) (gN t) dt = Ret (p', v') /\
    vec_derive (fun u => V3 (lat u) (lon u) (h u)) t p' /\ vec_derive v t v') ->
  let turn t := polar (- earth_rate * t) in
  let pos t := mvmul (turn t) (vec_of (lla2Ecef (lat t) (lon t) (h t) r)) in
  let w := V3 0 0 earth_rate in
  exists vel, forall t, t0 < t < t1 -> vec_derive pos t (vel t) /\
    vec_derive vel t (vadd (mvmul (turn t) (mvmul (mat_of (computeRNed2Ecef (lat t) (lon t) M)) (vadd (vscale (/ dt) (dVN t)) (gN t))))
                           (cross w (cross w (pos t)))).
Proof. exact inertial_motion. Qed.
Print Assumptions C123_newton_in_inertial_space.

(** C124: the angular momentum about the Earth's axis, per unit mass, changes at
    the rate of the torque of the east force. *)
Theorem C124_angular_momentum : forall lat lon h v dVN gN dt t0 t1 r,
  (forall t, t0 < t < t1 -> inside (lat t) (lon t) /\ exists p' v',
    strapdownDynamics (V3 (lat t) (lon t) (h t), v t) (dVN t) (gN t) dt = Ret (p', v') /\
    vec_derive (fun u => V3 (lat u) (lon u) (h u)) t p' /\ vec_derive v t v') ->
  (forall t, t0 < t < t1 -> -6300000 < h t) ->
  let rho t := let p := vec_of (lla2Ecef (lat t) (lon t) (h t) r) in sqrt (vx p * vx p + vy p * vy p) in
  forall t, t0 < t < t1 -> is_derive (fun s => rho s * (vy (v s) + earth_rate * rho s)) t (rho t * (vy (dVN t) / dt + vy (gN t))).
Proof. exact axial_momentum. Qed.
Print Assumptions C124_angular_momentum.

(** Eastward flight at 200 m/s and constant height is such a trajectory. *)
Example C123_case : exists (lat lon h : R -> R) (v dVN gN : R -> vec3) dt t0 t1, t0 < t1 /\
  (forall t, t0 < t < t1 -> inside (lat t) (lon t) /\ exists p' v',
    strapdownDynamics (V3 (lat t) (lon t) (h t), v t) (dVN t) (gN t) dt = Ret (p', v') /\
    vec_derive (fun u => V3 (lat u) (lon u) (h u)) t p' /\ vec_derive v t v') /\
  (forall t, t0 < t < t1 -> -6300000 < h t) /\ v 0 = V3 0 200 0 /\ gN 0 = V3 0 0 (98 / 10).
Proof. exact east_flight. Qed.
Example C124_case : exists (lat lon h : R -> R) (v dVN gN : R -> vec3) dt t0 t1, t0 < t1 /\
  (forall t, t0 < t < t1 -> inside (lat t) (lon t) /\ exists p' v',
    strapdownDynamics (V3 (lat t) (lon t) (h t), v t) (dVN t) (gN t) dt = Ret (p', v') /\
    vec_derive (fun u => V3 (lat u) (lon u) (h u)) t p' /\ vec_derive v t v') /\
  (forall t, t0 < t < t1 -> -6300000 < h t) /\ v 0 = V3 0 200 0 /\ gN 0 = V3 0 0 (98 / 10).
Proof. exact east_flight. Qed.
