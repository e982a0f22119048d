(** Trajectories of the strapdown dynamics seen from inertial space. *)
From Coq Require Import Reals List Lra.
From Coquelicot Require Import Coquelicot.
From Verif Require Import Base BaseVec SpecRot SpecEarth SpecPva2 ModelGravity ModelNavUtils ModelFrames
  ProofVec ProofFrames ProofFrames2 ProofNavUtils ProofPva3.
Open Scope R_scope.

Lemma vd_mat c f t d u : mat_derive c t d -> vec_derive f t u -> vec_derive (fun s => mvmul (c s) (f s)) t (vadd (mvmul d (f t)) (mvmul (c t) u)).
Proof.
  intros (R1 & R2 & R3) (F1 & F2 & F3).
  assert (L : forall r r', vec_derive r t r' -> is_derive (fun s => dot (r s) (f s)) t (dot r' (f t) + dot (r t) u)).
  { intros r r' (A & B & C). unfold dot. evar_last.
    - apply (is_derive_plus (V := R_NormedModule)); [apply (is_derive_plus (V := R_NormedModule))|]; apply dprod; eassumption.
    - cbn. ring. }
  pose proof (L _ _ R1) as L1. pose proof (L _ _ R2) as L2. pose proof (L _ _ R3) as L3.
  split; [|split]; [exact L1|exact L2|exact L3].
Qed.
Lemma vd_crossp f g t u v : vec_derive f t u -> vec_derive g t v -> vec_derive (fun s => cross (f s) (g s)) t (vadd (cross u (g t)) (cross (f t) v)).
Proof.
  intros (F1 & F2 & F3) (G1 & G2 & G3).
  assert (L : forall a b c d a' b' c' d', is_derive a t a' -> is_derive b t b' -> is_derive c t c' -> is_derive d t d' ->
    is_derive (fun s => a s * b s - c s * d s) t (a' * b t - c' * d t + (a t * b' - c t * d'))).
  { intros a b c d a' b' c' d' A B C D. evar_last.
    - apply (is_derive_minus (V := R_NormedModule)); apply dprod; eassumption.
    - cbn. unfold minus, plus, opp; cbn. ring. }
  unfold cross, vadd; split; [|split]; cbn [vx vy vz]; apply L; auto.
Qed.

Lemma mv_lin c a b u : mvmul c (cross (vadd (vscale 2 a) b) u) = vadd (vscale 2 (mvmul c (cross a u))) (mvmul c (cross b u)).
Proof. vec_ring. Qed.
Lemma mv_sub c a b : mvmul c (vsub a b) = vsub (mvmul c a) (mvmul c b). Proof. vec_ring. Qed.
Lemma mv_add c a b : mvmul c (vadd a b) = vadd (mvmul c a) (mvmul c b). Proof. vec_ring. Qed.
Lemma mv_scale c k a : mvmul c (vscale k a) = vscale k (mvmul c a). Proof. vec_ring. Qed.
Lemma acc_alg A B D x w : vsub (vsub (vadd D (vsub A (vadd (vscale 2 (cross (V3 0 0 w) B)) D))) (cross (V3 0 0 (- w)) B))
    (cross (V3 0 0 (- w)) (vsub B (cross (V3 0 0 (- w)) x))) = vadd A (cross (V3 0 0 w) (cross (V3 0 0 w) x)).
Proof. vec_ring. Qed.

Section Path.
Variables (lat lon h : R -> R) (v dVN gN : R -> vec3) (dt t0 t1 : R) (r : vec3) (M : mat3).
Hypothesis Sol : forall t, t0 < t < t1 -> inside (lat t) (lon t) /\ exists p' v',
  strapdownDynamics (V3 (lat t) (lon t) (h t), v t) (dVN t) (gN t) dt = Ret (p', v') /\
  vec_derive (fun u => V3 (lat u) (lon u) (h u)) t p' /\ vec_derive v t v'.
Let W := V3 0 0 earth_rate.
Let W' := V3 0 0 (- earth_rate).
Let P t := polar (- earth_rate * t).
Let re t := vec_of (lla2Ecef (lat t) (lon t) (h t) r).
Let C t := mat_of (computeRNed2Ecef (lat t) (lon t) M).
Let ri t := mvmul (P t) (re t).
Let vi t := vsub (mvmul (P t) (mvmul (C t) (v t))) (cross W' (ri t)).
Let f t := vadd (vscale (/ dt) (dVN t)) (gN t).

Lemma C_rot t : t0 < t < t1 -> is_rotation (C t) /\ mat_of (computeREcef2Ned (lat t) (lon t) M) = mtr (C t).
Proof.
  intros H. destruct (Sol t H) as (I & _). apply inside_in_range in I. unfold C. rewrite RN2E_ok, RE2N_ok by auto. cbn [mat_of].
  split; [|destruct (ned_matrix (lat t) (lon t)); reflexivity]. apply rotation_mtr, ned_rotation.
Qed.
Lemma vel_derive t : t0 < t < t1 -> vec_derive ri t (vi t).
Proof.
  intros H. destruct (Sol t H) as (I & p' & v' & E & (D1 & D2 & D3) & Dv). cbn [vx vy vz] in D1, D2, D3.
  apply polar_derive. apply (position_kinematics lat lon h t _ _ _ (v t) (dVN t) (gN t) dt p' v' M r D1 D2 D3 I E). destruct p'; reflexivity.
Qed.
Lemma acc_derive t : t0 < t < t1 -> vec_derive vi t (vadd (mvmul (P t) (mvmul (C t) (f t))) (cross W (cross W (ri t)))).
Proof.
  intros H. destruct (Sol t H) as (I & p' & v' & E & (D1 & D2 & D3) & Dv). cbn [vx vy vz] in D1, D2, D3.
  destruct (velocity_newton lat lon t p' (v t) (h t) (dVN t) (gN t) dt v' M M D1 D2 I E) as (wen & Dm & Ev).
  destruct (C_rot t H) as (HC & HT). rewrite HT in Ev. fold (f t) W in Ev. fold (C t) in Dm.
  eapply vd_eq; [|apply vd_sub; [apply polar_derive; apply vd_mat; [exact Dm|exact Dv]|apply vd_cross, vel_derive, H]].
  fold (P t) W'. unfold vi. rewrite Ev. clear Dm Ev Dv E. rewrite cmat_skew, mvmul_mmul, cmat_cross.
  assert (TC : mvmul (C t) (mvmul (mtr (C t)) W) = W).
  { apply rotation_matrix in HC. rewrite <- mvmul_mmul. destruct HC as (-> & _). apply mvmul_id. }
  set (c := C t) in *. set (p := P t) in *. set (x := ri t) in *. set (u := v t) in *. set (F := f t) in *.
  assert (HP : forall z, mvmul p (cross W z) = cross W (mvmul p z)) by (intros; unfold p, P, W; symmetry; apply polar_cross).
  rewrite !mv_add, mv_sub, mv_lin. destruct HC as (_ & HX). rewrite <- (HX (mvmul (mtr c) W)), TC, !mv_sub, mv_add, mv_scale, HP. apply acc_alg.
Qed.

(** ** Angular momentum about the Earth's axis *)
Hypothesis Hh : forall t, t0 < t < t1 -> -6300000 < h t.
Let rho t := sqrt (vx (re t) * vx (re t) + vy (re t) * vy (re t)).
Lemma plane t x : t0 < t < t1 -> vz (cross (re t) (mvmul (C t) x)) = rho t * vy x /\ 0 < rho t.
Proof.
  intros H. pose proof (Hh t H) as Ht. destruct (Sol t H) as (I & _). pose proof (inside_in_range _ _ I) as J. unfold rho, re, C.
  rewrite lla2Ecef_ok, RN2E_ok by auto. cbn [vec_of mat_of]. unfold ecef. cbn [vx vy vz].
  assert (Cp : 0 < cos (lat t)). { destruct I as (I & _). apply Rabs_def2 in I. apply cos_gt_0; lra. }
  pose proof (Nr_bounds (lat t)) as B. unfold gp_a in B. pose proof (cs1 (lon t)) as S.
  set (q := (Nr (lat t) + h t) * cos (lat t)). assert (Q : 0 < q) by (apply Rmult_lt_0_compat; lra).
  replace (q * cos (lon t) * (q * cos (lon t)) + q * sin (lon t) * (q * sin (lon t))) with (q * q * (cos (lon t) * cos (lon t) + sin (lon t) * sin (lon t))) by ring.
  rewrite S, Rmult_1_r, sqrt_square by lra. split; [|exact Q].
  unfold cross, mvmul, ned_matrix, mtr. cbn [vx vy vz m11 m12 m13 m21 m22 m23 m31 m32 m33].
  transitivity (q * vy x * (cos (lon t) * cos (lon t) + sin (lon t) * sin (lon t))); [ring|rewrite S; ring].
Qed.
Lemma polar_z x u : vz (mvmul (polar x) u) = vz u. Proof. unfold mvmul, polar. cbn. ring. Qed.
Lemma momentum t : t0 < t < t1 -> vz (cross (ri t) (vi t)) = rho t * (vy (v t) + earth_rate * rho t).
Proof.
  intros H. destruct (plane t (v t) H) as (E & R0). unfold vi. unfold ri at 1.
  assert (X : cross W' (ri t) = mvmul (P t) (cross W' (re t))) by (unfold ri, P, W'; apply polar_cross). rewrite X.
  rewrite <- mv_sub.
  unfold P. destruct (polar_rotation (- earth_rate * t)) as (_ & ->). rewrite polar_z.
  transitivity (vz (cross (re t) (mvmul (C t) (v t))) - vz (cross (re t) (cross W' (re t)))); [unfold vsub, cross; cbn [vx vy vz]; ring|].
  rewrite E. assert (S : rho t * rho t = vx (re t) * vx (re t) + vy (re t) * vy (re t)).
  { unfold rho. apply sqrt_sqrt. pose proof (Rle_0_sqr (vx (re t))). pose proof (Rle_0_sqr (vy (re t))). unfold Rsqr in *. lra. }
  transitivity (rho t * vy (v t) + earth_rate * (rho t * rho t)); [|ring]. rewrite S. unfold W', cross. cbn [vx vy vz]. ring.
Qed.
Lemma torque t : t0 < t < t1 -> is_derive (fun s => rho s * (vy (v s) + earth_rate * rho s)) t (rho t * (vy (dVN t) / dt + vy (gN t))).
Proof.
  intros H. apply is_derive_ext_loc with (fun s => vz (cross (ri s) (vi s))).
  { assert (L : locally t (fun s => t0 < s < t1)).
    { apply filter_and; [apply open_gt|apply open_lt]; apply H. }
    generalize L. apply filter_imp. intros s Hs. apply momentum, Hs. }
  destruct (vd_crossp _ _ _ _ _ (vel_derive t H) (acc_derive t H)) as (_ & _ & D). evar_last; [exact D|].
  destruct (plane t (f t) H) as (E & _). unfold f in E. cbn [vadd vscale vy] in E.
  replace (rho t * (vy (dVN t) / dt + vy (gN t))) with (rho t * (/ dt * vy (dVN t) + vy (gN t))) by (unfold Rdiv; ring). rewrite <- E.
  transitivity (vz (cross (ri t) (mvmul (P t) (mvmul (C t) (f t))))); [unfold vadd, cross, W; cbn [vx vy vz]; ring|].
  unfold ri, P. destruct (polar_rotation (- earth_rate * t)) as (_ & ->). rewrite polar_z. reflexivity.
Qed.
End Path.

Lemma inertial_motion : forall lat lon h v dVN gN dt t0 t1 r M,
  (forall t, t0 < t < t1 -> inside (lat t) (lon t) /\ exists p' v',
    strapdownDynamics (V3 (lat t) (lon t) (h t), v t) (dVN t) (gN t) dt = Ret (p', v') /\
    vec_derive (fun u => V3 (lat u) (lon u) (h u)) t p' /\ vec_derive v t v') ->
  let turn t := polar (- earth_rate * t) in
  let pos t := mvmul (turn t) (vec_of (lla2Ecef (lat t) (lon t) (h t) r)) in
  let w := V3 0 0 earth_rate in
  exists vel, forall t, t0 < t < t1 -> vec_derive pos t (vel t) /\
    vec_derive vel t (vadd (mvmul (turn t) (mvmul (mat_of (computeRNed2Ecef (lat t) (lon t) M)) (vadd (vscale (/ dt) (dVN t)) (gN t))))
                           (cross w (cross w (pos t)))).
Proof.
  intros lat lon h v dVN gN dt t0 t1 r M S turn pos w. eexists. intros t H. split.
  - exact (vel_derive lat lon h v dVN gN dt t0 t1 r M S t H).
  - exact (acc_derive lat lon h v dVN gN dt t0 t1 r M S t H).
Qed.
Lemma axial_momentum : forall lat lon h v dVN gN dt t0 t1 r,
  (forall t, t0 < t < t1 -> inside (lat t) (lon t) /\ exists p' v',
    strapdownDynamics (V3 (lat t) (lon t) (h t), v t) (dVN t) (gN t) dt = Ret (p', v') /\
    vec_derive (fun u => V3 (lat u) (lon u) (h u)) t p' /\ vec_derive v t v') ->
  (forall t, t0 < t < t1 -> -6300000 < h t) ->
  let rho t := let p := vec_of (lla2Ecef (lat t) (lon t) (h t) r) in sqrt (vx p * vx p + vy p * vy p) in
  forall t, t0 < t < t1 -> is_derive (fun s => rho s * (vy (v s) + earth_rate * rho s)) t (rho t * (vy (dVN t) / dt + vy (gN t))).
Proof. intros lat lon h v dVN gN dt t0 t1 r S Hh rho. exact (torque lat lon h v dVN gN dt t0 t1 r m3zero S Hh). Qed.

(** Eastward flight at constant latitude, height and speed. *)
Lemma east_flight : exists (lat lon h : R -> R) (v dVN gN : R -> vec3) dt t0 t1, t0 < t1 /\
  (forall t, t0 < t < t1 -> inside (lat t) (lon t) /\ exists p' v',
    strapdownDynamics (V3 (lat t) (lon t) (h t), v t) (dVN t) (gN t) dt = Ret (p', v') /\
    vec_derive (fun u => V3 (lat u) (lon u) (h u)) t p' /\ vec_derive v t v') /\
  (forall t, t0 < t < t1 -> -6300000 < h t) /\ v 0 = V3 0 200 0 /\ gN 0 = V3 0 0 (98 / 10).
Proof.
  set (V := V3 0 200 0). set (o := lon_rate (V3 (1/2) 0 1000, V)). set (d0 := dyn (V3 (1/2) 0 1000, V) v3zero (V3 0 0 (98/10)) 1).
  exists (fun _ => 1/2), (fun t => o * t), (fun _ => 1000), (fun _ => V), (fun _ => vneg (snd d0)), (fun _ => V3 0 0 (98/10)), 1, 0, (/ (1 + Rabs o)).
  pose proof (Rabs_pos o) as O0. assert (I0 : 0 < / (1 + Rabs o)) by (apply Rinv_0_lt_compat; lra).
  split; [exact I0|]. split; [|split; [intros; lra|split; reflexivity]].
  intros t (T0 & T1). assert (OT : Rabs (o * t) <= 1).
  { rewrite Rabs_mult, (Rabs_right t) by lra. apply Rle_trans with (Rabs o * / (1 + Rabs o)); [apply Rmult_le_compat_l; lra|].
    apply Rmult_le_reg_r with (1 + Rabs o); [lra|]. rewrite Rmult_assoc, Rinv_l by lra. lra. }
  pose proof PI2_1 as PP. split. { split; [rewrite Rabs_right; lra|lra]. }
  exists (V3 0 o 0), v3zero. split; [|split].
  - destruct (dynamics_defined (1/2) (o * t) 1000 V (vneg (snd d0)) (V3 0 0 (98/10)) 1) as (z & E); [rewrite Rabs_right; lra|lra|lra|].
    rewrite E. apply dynamics_form in E. destruct E as (_ & _ & ->). f_equal. unfold d0, dyn. cbv zeta.
    fold (lon_rate (V3 (1/2) 0 1000, V)).
    assert (L : forall x, lon_rate (V3 (1/2) x 1000, V) = o) by reflexivity. rewrite !L.
    assert (K : forall x, lat_rate (V3 (1/2) x 1000, V) = 0) by (intros; unfold lat_rate, V; cbn [fst snd vx vy vz]; unfold Rdiv; ring). rewrite !K.
    unfold V. cbn [fst snd vx vy vz vneg]. f_equal; apply v3_eq; cbn; try ring; field.
  - split; [|split]; cbn [vx vy vz]; [apply (is_derive_const (V := R_NormedModule))| |apply (is_derive_const (V := R_NormedModule))].
    auto_derive; auto; ring.
  - apply vd_const.
Qed.
