(** Independent specification of navigation errors: the equations of motion in
    inertial and in Earth-fixed axes, errors that evolve in time, and the
    gradient of a point mass. *)
From Coq Require Import Reals List.
From Coquelicot Require Import Coquelicot.
From Verif Require Import Base BaseVec SpecRot SpecEarth SpecPva.
Import ListNotations.
Open Scope R_scope.

(** The matrix of u |-> w x u. *)
Definition cmat (w : vec3) : mat3 :=
  M3 0 (- vz w) (vy w)  (vz w) 0 (- vx w)  (- vy w) (vx w) 0.

(** Equations of motion.  [C] takes sensor axes to navigation axes, [w] and [f]
    are the turn rate and specific force seen by the sensors, [g] is
    gravitation, [W] is the turn rate of the navigation axes (zero in inertial
    axes). *)
Definition attitude_rate (W : vec3) (C : mat3) (w : vec3) : mat3 :=
  msub (mmul C (cmat w)) (mmul (cmat W) C).
Definition velocity_rate (W : vec3) (C : mat3) (f g v p : vec3) : vec3 :=
  vsub (vadd (mvmul C f) g) (vadd (vscale 2 (cross W v)) (cross W (cross W p))).

(** An attitude that is off by the small rotation [psi]: to first order
    C - s (psi x) C. *)
Definition tilted (C : mat3) (psi : vec3) (s : R) : mat3 := msub C (mscale s (mmul (cmat psi) C)).

(** Sum of two lists of numbers, entry by entry. *)
Definition ladd (a b : list R) : list R := map (fun p => fst p + snd p) (combine a b).

(** The errors psi, dv, dp obey x' = F x + G u at every time. *)
Definition error_flow (F G : R -> MatrixXd) (psi dv dp dw df dg : R -> vec3) : Prop :=
  forall t, exists u v w, vec_derive psi t u /\ vec_derive dv t v /\ vec_derive dp t w /\
    l9 u v w = ladd (mx_apply (F t) (l9 (psi t) (dv t) (dp t))) (mx_apply (G t) (l9 (dw t) (df t) (dg t))).

(** Inertial axes to axes turned by the angle [x] about the polar axis. *)
Definition polar (x : R) : mat3 := M3 (cos x) (sin x) 0 (- sin x) (cos x) 0 0 0 1.

(** Gradient of the field - k p / |p|^3. *)
Definition mass_gradient (k : R) (p : vec3) : mat3 :=
  let n := norm p in
  M3 (k / n^5 * (3 * vx p * vx p - n^2)) (k / n^5 * (3 * vx p * vy p)) (k / n^5 * (3 * vx p * vz p))
     (k / n^5 * (3 * vy p * vx p)) (k / n^5 * (3 * vy p * vy p - n^2)) (k / n^5 * (3 * vy p * vz p))
     (k / n^5 * (3 * vz p * vx p)) (k / n^5 * (3 * vz p * vy p)) (k / n^5 * (3 * vz p * vz p - n^2)).
