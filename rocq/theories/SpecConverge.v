(** Motions of a vehicle, what its sensors report over short intervals, and how
    far apart two navigation states are. *)
From Coq Require Import Reals List.
From Verif Require Import Base BaseVec SpecRot SpecEarth ModelGravity ModelNavUtils ModelStrapdown.
Import ListNotations.
Open Scope R_scope.

(** Sums of absolute values; radians, metres and metres per second are added as
    plain numbers. *)
Definition n1 (v : vec3) : R := Rabs (vx v) + Rabs (vy v) + Rabs (vz v).
Definition n9 (A : mat3) : R := n1 (row1 A) + n1 (row2 A) + n1 (row3 A).
Definition d6 (y z : vec3 * vec3) : R := n1 (vsub (fst y) (fst z)) + n1 (vsub (snd y) (snd z)).
Definition d9 (A B : mat3) : R := n9 (msub A B).

(** Latitude within [A], height within [H], each velocity component within [V]. *)
Definition Box (A H V : R) (y : vec3 * vec3) : Prop :=
  Rabs (vx (fst y)) <= A /\ Rabs (vz (fst y)) <= H /\ Rabs (vx (snd y)) <= V /\ Rabs (vy (snd y)) <= V /\ Rabs (vz (snd y)) <= V.

(** One call of integrate (strapdown.cpp 41-85) with the time step in seconds
    given as a real number. *)
Definition nav_call (s : mat3 * (vec3 * vec3)) (dV dTh : vec3) (dt : R) : outcome (mat3 * (vec3 * vec3)) :=
  let '(A, (lla, v)) := s in
  a <- updateAttitude A dTh ;;
  g <- gravityNed (vx lla) (vz lla) ;;
  k <- strapdownRk4 [vx lla; vy lla; vz lla; vx v; vy v; vz v] dt (mvmul (snd a) dV) (snd g) [0; 0; 0; 0; 0; 0] ;;
  match snd k with
  | [y0; y1; y2; y3; y4; y5] => Ret (snd a, (V3 y0 y1 y2, V3 y3 y4 y5))
  | _ => Undef
  end.
(** A sequence of calls with increments of velocity and angle and time steps. *)
Definition step : Type := vec3 * vec3 * R.
Fixpoint nav_run (s : mat3 * (vec3 * vec3)) (l : list step) : outcome (mat3 * (vec3 * vec3)) :=
  match l with
  | [] => Ret s
  | (dV, dTh, dt) :: l' => s' <- nav_call s dV dTh dt ;; nav_run s' l'
  end.

(** Attitude [C] and position and velocity [y] move, from time 0 to [T], by the
    equations of strapdownDynamics and gravityNed under the specific force [f]
    and the angular rate [w], both in body axes. *)
Definition motion (T : R) (C : R -> mat3) (y : R -> vec3 * vec3) (f w : R -> vec3) : Prop :=
  forall t, 0 <= t <= T -> is_rotation (C t) /\
    (exists W, (forall u, mvmul W u = cross (w t) u) /\ mat_derive C t (mmul (C t) W)) /\
    exists g p' v', gravityNed (vx (fst (y t))) (vz (fst (y t))) = Ret (true, g) /\
      strapdownDynamics (y t) (mvmul (C t) (f t)) g 1 = Ret (p', v') /\
      vec_derive (fun s => fst (y s)) t p' /\ vec_derive (fun s => snd (y s)) t v'.

(** The calls from time [t] on: steps of at most [eta] up to [T]; per unit of
    time the increments are within [eps] of the force and rate throughout the
    step; no angle increment is zero. *)
Fixpoint sampled (T eta eps : R) (f w : R -> vec3) (t : R) (l : list step) : Prop :=
  match l with
  | [] => True
  | (dV, dTh, dt) :: l' => 0 < dt <= eta /\ t + dt <= T /\ dTh <> v3zero /\
      (forall s, t <= s <= t + dt -> n1 (vsub dV (vscale dt (f s))) <= dt * eps /\ n1 (vsub dTh (vscale dt (w s))) <= dt * eps) /\
      sampled T eta eps f w (t + dt) l'
  end.
Fixpoint end_time (t : R) (l : list step) : R :=
  match l with
  | [] => t
  | (_, _, dt) :: l' => end_time (t + dt) l'
  end.
