(** Theorems C113-C115: navigation errors as they evolve in time. *)
From Coq Require Import Reals List Lra.
From Coquelicot Require Import Coquelicot.
From Verif Require Import Base BaseVec SpecRot SpecEarth SpecPva SpecPva2 ModelGravity ModelNavUtils ModelPva ProofVec ProofPva3 ProofPva4.
Import ListNotations.
Open Scope R_scope.

(** C113: F x + G u is the first-order change of the equations of motion when
    attitude, velocity, position, sensors and gravity are off by psi, dv, dp,
    dw and df, dg.  The attitude error enters as C - psi x C, so its rate of
    change is - psi' x C - psi x C'. *)
Theorem C113_inertial_linearisation : forall C w f (g : vec3 -> vec3) Gr v p psi dv dp dw df dg F0 G0 F G,
  is_rotation C ->
  (forall u, vec_derive (fun s => g (vadd p (vscale s u))) 0 (mvmul Gr u)) ->
  inertialErrorDynamics (mvmul C f) Gr C F0 G0 = (true, (F, G)) ->
  exists psi' dv', ladd (mx_apply F (l9 psi dv dp)) (mx_apply G (l9 dw df dg)) = l9 psi' dv' dv /\
  mat_derive (fun s => attitude_rate v3zero (tilted C psi s) (vadd w (vscale s dw))) 0
    (mneg (madd (mmul (cmat psi') C) (mmul (cmat psi) (attitude_rate v3zero C w)))) /\
  vec_derive (fun s => velocity_rate v3zero (tilted C psi s) (vadd f (vscale s df)) (vadd (g (vadd p (vscale s dp))) (vscale s dg))
                (vadd v (vscale s dv)) (vadd p (vscale s dp))) 0 dv'.
Proof. exact inertial_linear. Qed.
Print Assumptions C113_inertial_linearisation.
Theorem C113_ecef_linearisation : forall W C w f (g : vec3 -> vec3) Gr v p psi dv dp dw df dg F0 G0 F G,
  is_rotation C ->
  (forall u, vec_derive (fun s => g (vadd p (vscale s u))) 0 (mvmul Gr u)) ->
  ecefErrorDynamics (mvmul C f) Gr C (cmat W) F0 G0 = (true, (F, G)) ->
  exists psi' dv', ladd (mx_apply F (l9 psi dv dp)) (mx_apply G (l9 dw df dg)) = l9 psi' dv' dv /\
  mat_derive (fun s => attitude_rate W (tilted C psi s) (vadd w (vscale s dw))) 0
    (mneg (madd (mmul (cmat psi') C) (mmul (cmat psi) (attitude_rate W C w)))) /\
  vec_derive (fun s => velocity_rate W (tilted C psi s) (vadd f (vscale s df)) (vadd (g (vadd p (vscale s dp))) (vscale s dg))
                (vadd v (vscale s dv)) (vadd p (vscale s dp))) 0 dv'.
Proof. exact ecef_linear. Qed.
Print Assumptions C113_ecef_linearisation.
(** The repository's point-mass gravity has such a gradient. *)
Theorem C113_point_mass_gradient : forall p u, p <> v3zero ->
  vec_derive (fun s => vec_of (simpleGravity (vadd p (vscale s u)))) 0 (mvmul (mass_gradient 398571280000000 p) u).
Proof. exact gradient_ok. Qed.
Print Assumptions C113_point_mass_gradient.
Example C113_case : exists F G psi' dv',
  inertialErrorDynamics (mvmul m3id (V3 9 0 0)) (mass_gradient 398571280000000 (V3 6400000 0 0)) m3id (mx_zero 9 9) (mx_zero 9 9) = (true, (F, G)) /\
  ladd (mx_apply F (l9 (V3 0 1 0) (V3 0 0 5) (V3 0 0 7))) (mx_apply G (l9 v3zero v3zero v3zero)) = l9 psi' dv' (V3 0 0 5) /\
  vec_derive (fun s => velocity_rate v3zero (tilted m3id (V3 0 1 0) s) (vadd (V3 9 0 0) (vscale s v3zero))
     (vadd (vec_of (simpleGravity (vadd (V3 6400000 0 0) (vscale s (V3 0 0 7))))) (vscale s v3zero))
     (vadd v3zero (vscale s (V3 0 0 5))) (vadd (V3 6400000 0 0) (vscale s (V3 0 0 7)))) 0 dv'.
Proof.
  destruct (ProofPva.inertial_blocks (mvmul m3id (V3 9 0 0)) (mass_gradient 398571280000000 (V3 6400000 0 0)) m3id (mx_zero 9 9) (mx_zero 9 9) (conj eq_refl eq_refl) (conj eq_refl eq_refl)) as (F & G & E & _).
  destruct (C113_inertial_linearisation m3id v3zero (V3 9 0 0) (fun p => vec_of (simpleGravity p)) (mass_gradient 398571280000000 (V3 6400000 0 0)) v3zero (V3 6400000 0 0)
    (V3 0 1 0) (V3 0 0 5) (V3 0 0 7) v3zero v3zero v3zero (mx_zero 9 9) (mx_zero 9 9) F G rotation_id) as (psi' & dv' & A & _ & B); auto.
  - intros u. apply C113_point_mass_gradient. intros H. injection H. intros. lra.
  - exists F, G, psi', dv'. auto.
Qed.

(** C114: errors that obey the inertial model, seen in axes that turn about the
    polar axis at any rate w, are exactly the errors that obey the ECEF model. *)
Theorem C114_frames_agree : forall w a Gr Rm F0 G0 FI GI FE GE psi dv dp dw df dg,
  let A t := polar (w * t) in let W := V3 0 0 w in
  (forall t, inertialErrorDynamics (a t) (Gr t) (Rm t) F0 G0 = (true, (FI t, GI t))) ->
  (forall t, ecefErrorDynamics (mvmul (A t) (a t)) (mmul (mmul (A t) (Gr t)) (mtr (A t))) (mmul (A t) (Rm t)) (cmat W) F0 G0 = (true, (FE t, GE t))) ->
  error_flow FI GI psi dv dp dw df dg <->
  error_flow FE GE (fun t => mvmul (A t) (psi t)) (fun t => mvmul (A t) (vsub (dv t) (cross W (dp t)))) (fun t => mvmul (A t) (dp t))
    dw df (fun t => mvmul (A t) (dg t)).
Proof. exact frames_agree. Qed.
Print Assumptions C114_frames_agree.
(** [polar x] gives the coordinates along axes turned by x. *)
Theorem C114_polar : forall x k r, is_rotation (polar x) /\ mvmul (polar x) (V3 (r * cos x) (r * sin x) k) = V3 r 0 k.
Proof.
  intros x k r. split; [apply polar_rotation|]. unfold mvmul, polar. cbn [vx vy vz m11 m12 m13 m21 m22 m23 m31 m32 m33].
  pose proof (cs1 x) as H. apply v3_eq; [|ring|ring]. transitivity (r * (cos x * cos x + sin x * sin x)); [ring|]. rewrite H. ring.
Qed.
Print Assumptions C114_polar.
(** A constant velocity error, seen from the turning Earth. *)
Example C114_case : exists FE GE,
  let A t := polar (earth_rate * t) in
  error_flow FE GE (fun t => mvmul (A t) v3zero) (fun t => mvmul (A t) (vsub (V3 1 0 0) (cross (V3 0 0 earth_rate) (V3 t 0 0)))) (fun t => mvmul (A t) (V3 t 0 0))
    (fun _ => v3zero) (fun _ => v3zero) (fun t => mvmul (A t) v3zero) /\
  (forall t, ecefErrorDynamics (mvmul (A t) (V3 0 0 9)) (mmul (mmul (A t) m3zero) (mtr (A t))) (mmul (A t) m3id) (cmat (V3 0 0 earth_rate)) (mx_zero 9 9) (mx_zero 9 9) = (true, (FE t, GE t))).
Proof.
  set (Y t := ecefErrorDynamics (mvmul (polar (earth_rate * t)) (V3 0 0 9)) (mmul (mmul (polar (earth_rate * t)) m3zero) (mtr (polar (earth_rate * t))))
     (mmul (polar (earth_rate * t)) m3id) (cmat (V3 0 0 earth_rate)) (mx_zero 9 9) (mx_zero 9 9)).
  set (X := inertialErrorDynamics (V3 0 0 9) m3zero m3id (mx_zero 9 9) (mx_zero 9 9)).
  assert (HY : forall t, Y t = (true, (fst (snd (Y t)), snd (snd (Y t))))) by reflexivity.
  assert (HX : X = (true, (fst (snd X), snd (snd X)))) by reflexivity.
  exists (fun t => fst (snd (Y t))), (fun t => snd (snd (Y t))). intros A. split; [|exact HY].
  apply (C114_frames_agree earth_rate (fun _ => V3 0 0 9) (fun _ => m3zero) (fun _ => m3id) (mx_zero 9 9) (mx_zero 9 9) (fun _ => fst (snd X)) (fun _ => snd (snd X)) _ _
    (fun _ => v3zero) (fun _ => V3 1 0 0) (fun t => V3 t 0 0) _ _ (fun _ => v3zero)); [intros _; exact HX|exact HY|].
  apply (inertial_flow (fun _ => V3 0 0 9) (fun _ => m3zero) (fun _ => m3id) (mx_zero 9 9) (mx_zero 9 9)); [intros _; exact HX|].
  intros t. split; [|split].
  - apply (vd_eq _ _ v3zero); [vring|]. apply vd_const.
  - apply (vd_eq _ _ v3zero); [unfold m3zero, m3id; vring|]. apply vd_const.
  - split; [|split]; cbn [vx vy vz]; auto_derive; auto.
Qed.

(** C115: the errors of an unforced navigator in the field of a point mass, held
    at p by a vertical force.  The attitude error stays; the height error grows
    exponentially; a horizontal error oscillates about the place that the tilt
    makes look level. *)
Theorem C115_point_mass_errors : forall k c p Rm F0 G0 F G psi dv dp, p <> v3zero ->
  inertialErrorDynamics (vscale c p) (mass_gradient k p) Rm F0 G0 = (true, (F, G)) ->
  error_flow (fun _ => F) (fun _ => G) psi dv dp (fun _ => v3zero) (fun _ => v3zero) (fun _ => v3zero) ->
  forall l w, 0 < l -> l * l * norm p ^ 3 = 2 * k -> 0 < w -> w * w * norm p ^ 3 = k ->
  forall t, psi t = psi 0 /\
    dot (dp t) p = dot (dp 0) p * cosh (l * t) + dot (dv 0) p * sinh (l * t) / l /\
    forall u, dot u p = 0 -> let m := c / (w * w) * dot (cross p (psi 0)) u in
      dot (dp t) u = m + (dot (dp 0) u - m) * cos (w * t) + dot (dv 0) u * sin (w * t) / w.
Proof. exact mass_errors. Qed.
Print Assumptions C115_point_mass_errors.
(** With the repository's constant, near the Earth's surface: horizontal errors
    come back with a period of about 84 minutes, and a height error grows a
    thousandfold within 77 minutes. *)
Theorem C115_near_the_earth : forall c p Rm F0 G0 F G psi dv dp, 6350000 <= norm p <= 6400000 ->
  inertialErrorDynamics (vscale c p) (mass_gradient 398571280000000 p) Rm F0 G0 = (true, (F, G)) ->
  error_flow (fun _ => F) (fun _ => G) psi dv dp (fun _ => v3zero) (fun _ => v3zero) (fun _ => v3zero) ->
  (exists T, 5030 < T < 5100 /\ forall u t, dot u p = 0 -> dot (dp (t + T)) u = dot (dp t) u) /\
  (dot (dv 0) p = 0 -> dot (dp 0) p <> 0 -> forall t, 4600 <= t -> 1000 * Rabs (dot (dp 0) p) < Rabs (dot (dp t) p)).
Proof. exact near_earth_errors. Qed.
Print Assumptions C115_near_the_earth.
(** An error 2 cosh 2t in height, at distance 1 from a mass with k = 2. *)
Example C115_case : exists F G,
  inertialErrorDynamics (vscale 2 (V3 1 0 0)) (mass_gradient 2 (V3 1 0 0)) m3id (mx_zero 9 9) (mx_zero 9 9) = (true, (F, G)) /\
  error_flow (fun _ => F) (fun _ => G) (fun _ => v3zero) (fun t => V3 (4 * sinh (2 * t)) 0 0) (fun t => V3 (2 * cosh (2 * t)) 0 0)
    (fun _ => v3zero) (fun _ => v3zero) (fun _ => v3zero) /\ norm (V3 1 0 0) = 1.
Proof.
  assert (N : norm (V3 1 0 0) = 1) by (unfold norm, dot; cbn [vx vy vz]; replace (1 * 1 + 0 * 0 + 0 * 0) with 1 by ring; apply sqrt_1).
  set (X := inertialErrorDynamics (vscale 2 (V3 1 0 0)) (mass_gradient 2 (V3 1 0 0)) m3id (mx_zero 9 9) (mx_zero 9 9)).
  assert (HX : X = (true, (fst (snd X), snd (snd X)))) by reflexivity.
  exists (fst (snd X)), (snd (snd X)). split; [exact HX|]. split; [|exact N].
  apply (inertial_flow (fun _ => vscale 2 (V3 1 0 0)) (fun _ => mass_gradient 2 (V3 1 0 0)) (fun _ => m3id) (mx_zero 9 9) (mx_zero 9 9)); [intros _; exact HX|].
  intros t. split; [|split].
  - apply (vd_eq _ _ v3zero); [unfold m3id; vring|]. apply vd_const.
  - apply (vd_eq _ _ (V3 (8 * cosh (2 * t)) 0 0)).
    + unfold mass_gradient. rewrite N. unfold m3id. apply v3_ext; unfold mvmul, vadd, cross, vscale, v3zero; cbn [vx vy vz m11 m12 m13 m21 m22 m23 m31 m32 m33]; field.
    + split; [|split]; cbn [vx vy vz]; unfold sinh, cosh; auto_derive; auto; field.
  - split; [|split]; cbn [vx vy vz]; unfold sinh, cosh; auto_derive; auto; field.
Qed.
