(** Theorems C93-C95: equilibrium, mounting and reflection of the strapdown
    navigator. *)
From Coq Require Import Reals ZArith List Lra Lia.
From Verif Require Import Base BaseVec SpecRot SpecEarth ModelAttitude ModelGravity ModelNavUtils ModelStrapdown
  SpecStrapdown ProofVec ProofAttitude2 ProofGravity ProofStrapdown ProofStrapdown2.
Import ListNotations.
Open Scope R_scope.

(** C93: a vehicle at rest whose accelerometers sense exactly the reaction to
    gravity stays where it is, however it turns. *)
Theorem C93_supported_vehicle_stays : forall l n n' A p, run (Some n) l = Ret (Some n') ->
  RB2N n = Some A -> pv n = Some (p, v3zero) -> Rabs (vx p) < PI/2 -> -6300000 < vz p ->
  hovers (mvmul A) (vec_of (gravityNed (vx p) (vz p))) (tov n) l -> pv n' = Some (p, v3zero).
Proof. exact hover. Qed.
Print Assumptions C93_supported_vehicle_stays.
(** Two samples on the ellipsoid: half a turn about the vertical, then one
    radian back. *)
Example C93_case : exists g, g <> 0 /\
  hovers (mvmul m3id) (vec_of (gravityNed (1/2) 0)) 0
    [(V3 0 0 (- g), vscale PI ez, 1000000%Z); (V3 0 0 (- (2 * g)), vscale (-1) ez, 3000000%Z)].
Proof.
  exists (g_ell (sin (1/2) * sin (1/2))). rewrite gravity_ellipsoid. cbn [vec_of].
  pose proof (g_ell_pos _ (t_range (1/2))) as P. set (g := g_ell _) in *. clearbody g.
  assert (U : dot ez ez = 1) by (unfold dot, ez; cbn; ring).
  pose proof PI_RGT_0.
  assert (Z1 : vscale PI ez <> v3zero) by (intros E; apply (f_equal vz) in E; cbn in E; lra).
  assert (Z2 : vscale (-1) ez <> v3zero) by (intros E; apply (f_equal vz) in E; cbn in E; lra).
  split; [lra|]. cbn [hovers]. unfold s_dV, s_dTh, s_t; cbn [fst snd].
  repeat split; auto; try lia; rewrite !mvmul_id, !rotvec_axis, !rotate_ez by (auto; lra); unfold vscale; cbn [vx vy vz];
    apply v3_eq; cbn; lra.
Qed.

(** C94: mounting the unit differently (rotation [C]) changes the attitude by
    [C] on the right and nothing else. *)
Theorem C94_mounting_invariance : forall C l n n', is_rotation C -> run (Some n) l = Ret (Some n') ->
  run (Some (NavS (match RB2N n with Some A => Some (mmul A C) | None => None end) (pv n) (tov n) (dt n))) (map (remount C) l)
  = Ret (Some (NavS (match RB2N n' with Some A => Some (mmul A C) | None => None end) (pv n') (tov n') (dt n'))).
Proof. intros C l n n' H. exact (run_mounted C l H n n'). Qed.
Print Assumptions C94_mounting_invariance.
(** A unit turned by a quarter turn about the vertical. *)
Example C94_case : is_rotation (axis_matrix ez (PI/2)) /\
  remount (axis_matrix ez (PI/2)) (V3 1 2 3, V3 0 1 0, 5%Z) = (V3 2 (-1) 3, V3 1 0 0, 5%Z).
Proof.
  split; [apply axis_matrix_rotation; unfold dot, ez; cbn; ring|].
  unfold remount, s_dV, s_dTh, s_t, axis_matrix, ez; cbn [fst snd vx vy vz]. rewrite cos_PI2, sin_PI2.
  unfold mtr, mvmul, dot; cbn. repeat f_equal; lra.
Qed.

(** C95: the same flight reflected in the plane of the equator. *)
Theorem C95_equator_reflection : forall l n n', run (Some n) l = Ret (Some n') ->
  run (Some (NavS (match RB2N n with Some A => Some (mmul flip (mmul A flip)) | None => None end)
     (match pv n with Some y => Some (mirror y) | None => None end) (tov n) (dt n))) (map flip_sample l)
  = Ret (Some (NavS (match RB2N n' with Some A => Some (mmul flip (mmul A flip)) | None => None end)
     (match pv n' with Some y => Some (mirror y) | None => None end) (tov n') (dt n'))).
Proof. exact run_flipped. Qed.
Print Assumptions C95_equator_reflection.
(** A climb northwards with a turn to the east becomes one southwards. *)
Example C95_case : mirror (V3 (1/2) 1 100, V3 10 0 (-1)) = (V3 (-(1/2)) 1 100, V3 (-10) 0 (-1)) /\
  flip_sample (V3 1 2 3, V3 0 0 1, 5%Z) = (V3 (-1) 2 3, V3 0 0 (-1), 5%Z).
Proof.
  unfold mirror, mirrorv, flip_sample, flip, s_dV, s_dTh, s_t; cbn [fst snd vx vy vz].
  unfold mvmul, dot, vneg; cbn. split; repeat f_equal; lra.
Qed.
