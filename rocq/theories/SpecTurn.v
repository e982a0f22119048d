(** A turning unit, what ideal gyros report over short intervals, and a coning
    motion. *)
From Coq Require Import Reals ZArith List.
From Verif Require Import Base BaseVec SpecRot SpecEarth SpecStrapdown.
Import ListNotations.
Open Scope R_scope.

(** From time 0 to [T] the attitude [C] turns with the body rate [w], whose
    integral is [th]. *)
Definition turning (T : R) (C : R -> mat3) (w th : R -> vec3) : Prop :=
  forall t, 0 <= t <= T -> is_rotation (C t) /\
    (exists W, (forall u, mvmul W u = cross (w t) u) /\ mat_derive C t (mmul (C t) W)) /\ vec_derive th t (w t).
(** The rate is at most [M] and changes by at most [L] per unit of time. *)
Definition smooth_rate (T M L : R) (w : R -> vec3) : Prop :=
  (forall t, 0 <= t <= T -> norm (w t) <= M) /\
  (forall s t, 0 <= s <= t -> t <= T -> norm (vsub (w t) (w s)) <= L * (t - s)).

(** Samples paired with their true lengths: each reports the integral of the
    rate over its interval, is not zero, and lasts at most [eta]. *)
Fixpoint gyro_samples (eta : R) (th : R -> vec3) (t : R) (l : list (sample * R)) : Prop :=
  match l with
  | [] => True
  | (m, h) :: l' => 0 < h <= eta /\ s_dTh m = vsub (th (t + h)) (th t) /\ s_dTh m <> v3zero /\ gyro_samples eta th (t + h) l'
  end.
Definition span (l : list (sample * R)) : R := fold_right Rplus 0 (map snd l).

(** Coning: the unit is tilted by the angle [e] about a horizontal axis that
    itself turns at the rate [W]. *)
Definition coning (e W t : R) : mat3 :=
  let n := V3 (cos (W * t)) (sin (W * t)) 0 in
  M3 (vx (rotate n e ex)) (vx (rotate n e ey)) (vx (rotate n e ez))
     (vy (rotate n e ex)) (vy (rotate n e ey)) (vy (rotate n e ez))
     (vz (rotate n e ex)) (vz (rotate n e ey)) (vz (rotate n e ez)).
Definition cone_rate (e W t : R) : vec3 :=
  V3 (- W * sin e * sin (W * t)) (W * sin e * cos (W * t)) (- W * (1 - cos e)).
Definition cone_angle (e W t : R) : vec3 :=
  V3 (sin e * cos (W * t)) (sin e * sin (W * t)) (- W * (1 - cos e) * t).
