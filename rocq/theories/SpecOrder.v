(** A vehicle at rest at zero height on the equator, held up against gravity,
    that rolls about its north-pointing axis at 1 rad/s. *)
From Coq Require Import Reals ZArith List.
From Verif Require Import Base BaseVec ModelGravity SpecStrapdown SpecConverge.
Import ListNotations.
Open Scope R_scope.

Definition at_rest : vec3 * vec3 := (v3zero, v3zero).
Definition rolling (t : R) : mat3 := M3 1 0 0  0 (cos t) (- sin t)  0 (sin t) (cos t).
(** The specific force and the rate in body axes, and their integrals. *)
Definition roll_force (t : R) : vec3 := V3 0 (- gp_gEq * sin t) (- gp_gEq * cos t).
Definition roll_rate (t : R) : vec3 := V3 1 0 0.
Definition roll_dv (t : R) : vec3 := V3 0 (gp_gEq * cos t) (- gp_gEq * sin t).
Definition roll_angle (t : R) : vec3 := V3 t 0 0.
(** Ideal increments of the step [k], of length [h]. *)
Definition roll_step (h : R) (k : nat) : step :=
  (vsub (roll_dv (INR (S k) * h)) (roll_dv (INR k * h)), vsub (roll_angle (INR (S k) * h)) (roll_angle (INR k * h)), h).
(** The same as samples every 10 ms, from time stamp 0 on. *)
Definition roll_sample (k : nat) : sample :=
  (fst (roll_step (1 / 100) k), (Z.of_nat (S k) * 10000)%Z).
