(** Linearisation of the equations of motion; growth of errors near a point mass. *)
From Coq Require Import Reals List Lra Lia.
From Coquelicot Require Import Coquelicot.
From Verif Require Import Base BaseVec SpecRot SpecEarth SpecPva SpecPva2 ModelGravity ModelNavUtils ModelPva
  ProofVec ProofGravity ProofPva ProofPva3 CheckNum.
Import ListNotations.
Open Scope R_scope.

Ltac uv := unfold tilted, cmat, mvmul, mmul, msub, madd, mscale, mneg, mtr, vadd, vsub, vneg, vscale, cross, v3zero;
  cbn [vx vy vz m11 m12 m13 m21 m22 m23 m31 m32 m33].

Lemma cmat_rot C : is_rotation C -> forall w, mmul C (cmat w) = mmul (cmat (mvmul C w)) C.
Proof.
  intros (_ & H) w. apply mat3_ext. intros u. rewrite !mvmul_mmul, !cmat_cross. symmetry. apply H.
Qed.
Lemma quad a b c : is_derive (fun s => a + s * b + s * s * c) 0 b.
Proof. auto_derive; auto. ring. Qed.
Lemma vd_quad a b c f : (forall s, f s = vadd (vadd a (vscale s b)) (vscale (s * s) c)) -> vec_derive f 0 b.
Proof. intros H. apply (vd_ext (fun s => vadd (vadd a (vscale s b)) (vscale (s * s) c))); [auto|]. split; [|split]; apply quad. Qed.
Lemma md_quad a b c f : (forall s, f s = madd (madd a (mscale s b)) (mscale (s * s) c)) -> mat_derive f 0 b.
Proof.
  intros H. split; [|split]; [apply (vd_quad (row1 a) _ (row1 c))|apply (vd_quad (row2 a) _ (row2 c))|apply (vd_quad (row3 a) _ (row3 c))];
    intros s; rewrite H; reflexivity.
Qed.
Lemma tilt_force C psi f df : vec_derive (fun s => mvmul (tilted C psi s) (vadd f (vscale s df))) 0
  (vadd (cross (mvmul C f) psi) (mvmul C df)).
Proof.
  apply (vd_quad (mvmul C f) _ (vneg (cross psi (mvmul C df)))). intros s.
  replace (mvmul (tilted C psi s) (vadd f (vscale s df))) with
    (vsub (mvmul C (vadd f (vscale s df))) (vscale s (cross psi (mvmul C (vadd f (vscale s df)))))).
  - rewrite mvmul_vadd, mvmul_vscale. generalize (mvmul C f) (mvmul C df). intros. vring.
  - rewrite <- cmat_cross, <- mvmul_mmul. unfold tilted. generalize (mmul (cmat psi) C) (vadd f (vscale s df)). intros.
    unfold msub, mscale. vring.
Qed.
Lemma mmul_msub_l A B C : mmul (msub A B) C = msub (mmul A C) (mmul B C). Proof. vec_ring. Qed.
Lemma mmul_msub_r A B C : mmul A (msub B C) = msub (mmul A B) (mmul A C). Proof. vec_ring. Qed.
Lemma mmul_madd_r A B C : mmul A (madd B C) = madd (mmul A B) (mmul A C). Proof. vec_ring. Qed.
Lemma mmul_mneg_l A B : mmul (mneg A) B = mneg (mmul A B). Proof. vec_ring. Qed.
Lemma tilt_attitude W C w psi dw : mat_derive (fun s => attitude_rate W (tilted C psi s) (vadd w (vscale s dw))) 0
  (msub (mmul C (cmat dw)) (msub (mmul (mmul (cmat psi) C) (cmat w)) (mmul (cmat W) (mmul (cmat psi) C)))).
Proof.
  apply (md_quad (attitude_rate W C w) _ (mneg (mmul (mmul (cmat psi) C) (cmat dw)))). intros s.
  unfold attitude_rate, tilted.
  replace (cmat (vadd w (vscale s dw))) with (madd (cmat w) (mscale s (cmat dw))) by (unfold cmat; vec_ring).
  generalize (mmul (cmat psi) C) (cmat w) (cmat dw) (cmat W). intros P A B D.
  rewrite mmul_msub_l, mmul_msub_r, !mmul_madd_r, !mscale_mmul_l, !mscale_mmul_r.
  generalize (mmul C A) (mmul C B) (mmul P A) (mmul P B) (mmul D C) (mmul D P). clear. intros x1 x2 x3 x4 x5 x6.
  unfold madd, msub, mscale, mneg. cbn [m11 m12 m13 m21 m22 m23 m31 m32 m33]. apply m3_eq; ring.
Qed.
Lemma tilt_rest W C w psi dw u : is_rotation C -> u = vsub (vneg (mvmul C dw)) (cross W psi) ->
  msub (mmul C (cmat dw)) (msub (mmul (mmul (cmat psi) C) (cmat w)) (mmul (cmat W) (mmul (cmat psi) C))) =
  mneg (madd (mmul (cmat u) C) (mmul (cmat psi) (attitude_rate W C w))).
Proof.
  intros H ->. rewrite (cmat_rot C H dw). generalize (mvmul C dw). intros q. unfold attitude_rate.
  replace (cmat (vsub (vneg q) (cross W psi))) with (msub (mneg (cmat q)) (msub (mmul (cmat W) (cmat psi)) (mmul (cmat psi) (cmat W))))
    by (destruct W, psi, q; unfold cmat; unvec; apply m3_eq; ring).
  rewrite !mmul_msub_l, mmul_msub_r, !mmul_assoc, mmul_mneg_l.
  generalize (mmul (cmat q) C) (mmul (cmat psi) (mmul C (cmat w))) (mmul (cmat W) (mmul (cmat psi) C)) (mmul (cmat psi) (mmul (cmat W) C)). clear. intros x1 x2 x3 x4.
  unfold madd, msub, mscale, mneg. cbn [m11 m12 m13 m21 m22 m23 m31 m32 m33]. apply m3_eq; ring.
Qed.
Lemma vd_lin v dv t : vec_derive (fun s => vadd v (vscale s dv)) t dv.
Proof. split; [|split]; uv; auto_derive; auto; ring. Qed.

Lemma motion_linear W C w f (g : vec3 -> vec3) Gr v p psi dv dp dw df dg : is_rotation C ->
  (forall u, vec_derive (fun s => g (vadd p (vscale s u))) 0 (mvmul Gr u)) ->
  let u := vsub (vneg (mvmul C dw)) (cross W psi) in
  mat_derive (fun s => attitude_rate W (tilted C psi s) (vadd w (vscale s dw))) 0
    (mneg (madd (mmul (cmat u) C) (mmul (cmat psi) (attitude_rate W C w)))) /\
  vec_derive (fun s => velocity_rate W (tilted C psi s) (vadd f (vscale s df)) (vadd (g (vadd p (vscale s dp))) (vscale s dg))
                (vadd v (vscale s dv)) (vadd p (vscale s dp))) 0
    (vadd (vsub (vadd (cross (mvmul C f) psi) (mvmul Gr dp)) (vadd (vscale 2 (cross W dv)) (cross W (cross W dp)))) (vadd (mvmul C df) dg)).
Proof.
  intros HC Hg u. split.
  - rewrite <- (tilt_rest W C w psi dw u HC eq_refl). apply tilt_attitude.
  - unfold velocity_rate. eapply vd_eq; [|apply vd_sub; [apply vd_add; [apply tilt_force|apply vd_add; [apply Hg|apply (vd_ext (fun s => vadd v3zero (vscale s dg))); [intros; vring|apply vd_lin]]]|
      apply vd_add; [apply (vd_ext (fun s => mvmul (M3 2 0 0 0 2 0 0 0 2) (cross W (vadd v (vscale s dv))))); [intros; vring|apply vd_mvmul, vd_cross, vd_lin]|apply vd_cross, vd_cross, vd_lin]]].
    generalize (cross W (cross W dp)) (cross W dv). intros; vring.
Qed.

Lemma inertial_linear C w f (g : vec3 -> vec3) Gr v p psi dv dp dw df dg F0 G0 F G : is_rotation C ->
  (forall u, vec_derive (fun s => g (vadd p (vscale s u))) 0 (mvmul Gr u)) ->
  inertialErrorDynamics (mvmul C f) Gr C F0 G0 = (true, (F, G)) ->
  exists psi' dv', ladd (mx_apply F (l9 psi dv dp)) (mx_apply G (l9 dw df dg)) = l9 psi' dv' dv /\
  mat_derive (fun s => attitude_rate v3zero (tilted C psi s) (vadd w (vscale s dw))) 0
    (mneg (madd (mmul (cmat psi') C) (mmul (cmat psi) (attitude_rate v3zero C w)))) /\
  vec_derive (fun s => velocity_rate v3zero (tilted C psi s) (vadd f (vscale s df)) (vadd (g (vadd p (vscale s dp))) (vscale s dg))
                (vadd v (vscale s dv)) (vadd p (vscale s dp))) 0 dv'.
Proof.
  intros HC Hg H. assert (S : size9 F0 /\ size9 G0).
  { unfold inertialErrorDynamics in H. rewrite <- !is9_inv. destruct (is9x9 F0), (is9x9 G0); cbn in H; auto; discriminate. }
  destruct S as (SF & SG). destruct (inertial_blocks (mvmul C f) Gr C F0 G0 SF SG) as (F' & G' & E & _ & A & B).
  rewrite H in E. injection E as <- <-. rewrite A, B, ladd_l9.
  destruct (motion_linear v3zero C w f g Gr v p psi dv dp dw df dg HC Hg) as (M & N). 
  exists (vsub (vneg (mvmul C dw)) (cross v3zero psi)).
  eexists. split; [|split; [exact M|exact N]]. f_equal; vring.
Qed.
Lemma ecef_linear W C w f (g : vec3 -> vec3) Gr v p psi dv dp dw df dg F0 G0 F G : is_rotation C ->
  (forall u, vec_derive (fun s => g (vadd p (vscale s u))) 0 (mvmul Gr u)) ->
  ecefErrorDynamics (mvmul C f) Gr C (cmat W) F0 G0 = (true, (F, G)) ->
  exists psi' dv', ladd (mx_apply F (l9 psi dv dp)) (mx_apply G (l9 dw df dg)) = l9 psi' dv' dv /\
  mat_derive (fun s => attitude_rate W (tilted C psi s) (vadd w (vscale s dw))) 0
    (mneg (madd (mmul (cmat psi') C) (mmul (cmat psi) (attitude_rate W C w)))) /\
  vec_derive (fun s => velocity_rate W (tilted C psi s) (vadd f (vscale s df)) (vadd (g (vadd p (vscale s dp))) (vscale s dg))
                (vadd v (vscale s dv)) (vadd p (vscale s dp))) 0 dv'.
Proof.
  intros HC Hg H. assert (S : size9 F0 /\ size9 G0).
  { unfold ecefErrorDynamics in H. rewrite <- !is9_inv. destruct (is9x9 F0), (is9x9 G0); cbn in H; auto; discriminate. }
  destruct S as (SF & SG). destruct (ecef_blocks (mvmul C f) Gr C (cmat W) F0 G0 SF SG) as (F' & G' & E & _ & A & B).
  rewrite H in E. injection E as <- <-. rewrite A, B, ladd_l9, !cmat_cross.
  destruct (motion_linear W C w f g Gr v p psi dv dp dw df dg HC Hg) as (M & N). 
  exists (vsub (vneg (mvmul C dw)) (cross W psi)).
  eexists. split; [|split; [exact M|exact N]]. f_equal; vring.
Qed.

(** ** The gradient of simpleGravity *)
Lemma gradient_ok p u : p <> v3zero ->
  vec_derive (fun s => vec_of (simpleGravity (vadd p (vscale s u)))) 0 (mvmul (mass_gradient 398571280000000 p) u).
Proof.
  intros Hp. pose proof (norm_pos p Hp) as Hn. pose proof (norm_sq p) as Hs. set (n := norm p) in *.
  set (d := fun s => dot (vadd p (vscale s u)) (vadd p (vscale s u))).
  assert (D0 : d 0 = n * n) by (unfold d; rewrite Hs; unfold dot; uv; ring).
  assert (L : locally 0 (fun s => vadd p (vscale s u) <> v3zero)).
  { assert (C : continuous d 0).
    { apply (ex_derive_continuous (V := R_NormedModule)). unfold d, dot. uv. auto_derive. auto. }
    assert (P : locally (d 0) (fun y => 0 < y)) by (apply open_gt; rewrite D0; nra).
    specialize (C _ P). unfold filtermap in C. eapply filter_imp; [|exact C]. cbn beta. intros s Hd E. unfold d in Hd. rewrite E in Hd.
    unfold dot, v3zero in Hd. cbn in Hd. lra. }
  assert (K : forall s, vadd p (vscale s u) <> v3zero -> vec_of (simpleGravity (vadd p (vscale s u))) =
      vscale (- 398571280000000 / (d s * sqrt (d s))) (vadd p (vscale s u))).
  { intros s Hz. rewrite simpleGravity_ok by auto. reflexivity. }
  assert (Dk : is_derive (fun s => - 398571280000000 / (d s * sqrt (d s))) 0 (3 * 398571280000000 * dot p u / n^5)).
  { unfold d, dot. uv. auto_derive.
    - fold (dot p p). rewrite !Rmult_0_l, !Rplus_0_r. fold (dot p p). rewrite <- Hs, sqrt_square by lra. assert (0 < n * n) by nra. assert (0 < n * n * n) by (apply Rmult_lt_0_compat; lra). repeat split; lra.
    - rewrite !Rmult_0_l, !Rplus_0_r. fold (dot p p). rewrite <- Hs, sqrt_square by lra. field. lra. }
  assert (S0 : sqrt (d 0) = n) by (rewrite D0; apply sqrt_square; lra).
  split; [|split]; (eapply is_derive_ext_loc; [eapply filter_imp; [|exact L]; intros s Hz; cbv beta; rewrite (K s Hz); reflexivity|]);
    uv; cbv beta; (evar_last; [apply dprod; [exact Dk|auto_derive; auto; reflexivity]|]);
    cbv beta; rewrite S0, D0; unfold mass_gradient; cbn [m11 m12 m13 m21 m22 m23 m31 m32 m33]; fold n; unfold dot; field; lra.
Qed.

(** ** Second-order equations with constant coefficients *)
Lemma const_of_derive (f : R -> R) : (forall t, is_derive f t 0) -> forall t, f t = f 0.
Proof.
  intros H t. destruct (Rtotal_order t 0) as [L|[->|L]]; auto.
  - apply (eq_is_derive (V := R_NormedModule) f t 0); [intros; apply H|lra].
  - symmetry. apply (eq_is_derive (V := R_NormedModule) f 0 t); [intros; apply H|lra].
Qed.
Lemma expo (f : R -> R) l : (forall t, is_derive f t (l * f t)) -> f 0 = 0 -> forall t, f t = 0.
Proof.
  intros H H0 t. assert (E : f t * exp (- l * t) = 0).
  { rewrite (const_of_derive (fun t => f t * exp (- l * t))); [rewrite H0; ring|].
    intros s. evar_last; [apply (dprod f (fun t => exp (- l * t)) s (l * f s) (- l * exp (- l * s))); [apply H|auto_derive; auto; ring]|]. cbn. ring. }
  apply Rmult_integral in E. destruct E as [E|E]; auto. pose proof (exp_pos (- l * t)). lra.
Qed.
Lemma hyper (e e1 : R -> R) l : 0 < l -> (forall t, is_derive e t (e1 t)) -> (forall t, is_derive e1 t (l * l * e t)) ->
  forall t, e t = e 0 * cosh (l * t) + e1 0 * sinh (l * t) / l.
Proof.
  intros Hl H1 H2 t.
  set (y := fun t => e t - (e 0 * cosh (l * t) + e1 0 * sinh (l * t) / l)).
  set (y1 := fun t => e1 t - (e 0 * (l * sinh (l * t)) + e1 0 * cosh (l * t))).
  assert (D1 : forall t, is_derive y t (y1 t)).
  { intros s. unfold y, y1. apply (is_derive_minus (V := R_NormedModule)); [apply H1|]. unfold cosh, sinh. auto_derive; auto. field. lra. }
  assert (D2 : forall t, is_derive y1 t (l * l * y t)).
  { intros s. unfold y, y1. evar_last; [apply (is_derive_minus (V := R_NormedModule)); [apply H2|unfold cosh, sinh; auto_derive; auto; reflexivity]|].
    unfold minus, plus, opp, cosh, sinh; cbn. field. lra. }
  assert (Y0 : y 0 = 0) by (unfold y; rewrite Rmult_0_r, cosh_0, sinh_0; field; lra).
  assert (Y1 : y1 0 = 0) by (unfold y1; rewrite Rmult_0_r, cosh_0, sinh_0; ring).
  assert (Z : forall t, y1 t + l * y t = 0).
  { apply (expo _ l); [|rewrite Y0, Y1; ring]. intros s.
    evar_last; [apply (is_derive_plus (V := R_NormedModule)); [apply D2|apply is_derive_scal, D1]|]. unfold plus; cbn. ring. }
  assert (Y : y t = 0).
  { apply (expo y (- l)); auto. intros s. evar_last; [apply D1|]. specialize (Z s). lra. }
  unfold y in Y. lra.
Qed.
Lemma oscil (e e1 : R -> R) w K : 0 < w -> (forall t, is_derive e t (e1 t)) -> (forall t, is_derive e1 t (K - w * w * e t)) ->
  forall t, e t = K / (w * w) + (e 0 - K / (w * w)) * cos (w * t) + e1 0 * sin (w * t) / w.
Proof.
  intros Hw H1 H2 t. set (c := K / (w * w)). assert (Hc : K = w * w * c) by (unfold c; field; lra).
  set (y := fun t => e t - (c + (e 0 - c) * cos (w * t) + e1 0 * sin (w * t) / w)).
  set (y1 := fun t => e1 t - (- w * (e 0 - c) * sin (w * t) + e1 0 * cos (w * t))).
  assert (D1 : forall t, is_derive y t (y1 t)).
  { intros s. unfold y, y1. apply (is_derive_minus (V := R_NormedModule)); [apply H1|]. auto_derive; auto. field. lra. }
  assert (D2 : forall t, is_derive y1 t (- (w * w) * y t)).
  { intros s. unfold y, y1. evar_last; [apply (is_derive_minus (V := R_NormedModule)); [apply H2|auto_derive; auto; reflexivity]|].
    unfold minus, plus, opp; cbn. rewrite Hc. field. lra. }
  assert (Y0 : y 0 = 0) by (unfold y; rewrite Rmult_0_r, cos_0, sin_0; field; lra).
  assert (Y1 : y1 0 = 0) by (unfold y1; rewrite Rmult_0_r, cos_0, sin_0; ring).
  assert (E : y1 t * y1 t + w * w * (y t * y t) = 0).
  { rewrite (const_of_derive (fun t => y1 t * y1 t + w * w * (y t * y t))); [rewrite Y0, Y1; ring|]. intros s.
    evar_last; [apply (is_derive_plus (V := R_NormedModule)); [apply dprod; apply D2|apply is_derive_scal, dprod; apply D1]|]. unfold plus; cbn. ring. }
  assert (Y : y t = 0) by (revert E Hw; generalize (y t) (y1 t); clear; intros a b E Hw; assert (0 < w * w) by nra; assert (0 <= b * b) by nra; assert (0 <= a * a) by nra; assert (a * a = 0) by nra; nra).
  unfold y in Y. lra.
Qed.

(** ** Errors near a point mass *)
Lemma vd_dot f t u c : vec_derive f t u -> is_derive (fun t => dot (f t) c) t (dot u c).
Proof.
  intros (A & B & C). unfold dot. eapply is_derive_ext; [|evar_last; [apply (dlin _ _ _ (vx c) (vy c) (vz c) _ _ _ _ A B C)|]].
  - intros s; cbn. ring.
  - ring.
Qed.
Lemma vd_zero f : (forall t, vec_derive f t v3zero) -> forall t, f t = f 0.
Proof. intros H t. apply v3_ext; apply (const_of_derive (fun t => _ (f t))); intros s; apply (H s). Qed.
Lemma mass_gradient_apply k p u : p <> v3zero ->
  mvmul (mass_gradient k p) u = vscale (k / norm p ^ 5) (vsub (vscale (3 * dot p u) p) (vscale (norm p ^ 2) u)).
Proof. intros H. pose proof (norm_pos p H). unfold mass_gradient, dot. uv. apply v3_eq; field; lra. Qed.
Lemma mass_gradient_vert k p u : p <> v3zero -> dot (mvmul (mass_gradient k p) u) p = 2 * k / norm p ^ 3 * dot u p.
Proof.
  intros H. pose proof (norm_pos p H) as N. rewrite mass_gradient_apply by auto.
  transitivity (k / norm p ^ 5 * (3 * dot p u * dot p p - norm p ^ 2 * dot u p)); [unfold dot; uv; ring|].
  rewrite <- norm_sq, (dot_comm p u). field. lra.
Qed.
Lemma mass_gradient_hor k p u v : p <> v3zero -> dot v p = 0 -> dot (mvmul (mass_gradient k p) u) v = - (k / norm p ^ 3) * dot u v.
Proof.
  intros H V. pose proof (norm_pos p H) as N. rewrite mass_gradient_apply by auto.
  transitivity (k / norm p ^ 5 * (3 * dot p u * dot v p - norm p ^ 2 * dot u v)); [unfold dot; uv; ring|].
  rewrite V. field. lra.
Qed.
Lemma mass_errors k c p Rm F0 G0 F G psi dv dp : p <> v3zero ->
  inertialErrorDynamics (vscale c p) (mass_gradient k p) Rm F0 G0 = (true, (F, G)) ->
  error_flow (fun _ => F) (fun _ => G) psi dv dp (fun _ => v3zero) (fun _ => v3zero) (fun _ => v3zero) ->
  forall l w, 0 < l -> l * l * norm p ^ 3 = 2 * k -> 0 < w -> w * w * norm p ^ 3 = k ->
  forall t, psi t = psi 0 /\
    dot (dp t) p = dot (dp 0) p * cosh (l * t) + dot (dv 0) p * sinh (l * t) / l /\
    forall u, dot u p = 0 -> let m := c / (w * w) * dot (cross p (psi 0)) u in
      dot (dp t) u = m + (dot (dp 0) u - m) * cos (w * t) + dot (dv 0) u * sin (w * t) / w.
Proof.
  intros Hp HF HE l w Hl El Hw Ew t. pose proof (norm_pos p Hp) as N. assert (N3 : 0 < norm p ^ 3) by (apply pow_lt; auto).
  assert (HD := proj1 (inertial_flow (fun _ => vscale c p) (fun _ => mass_gradient k p) (fun _ => Rm) F0 G0 (fun _ => F) (fun _ => G) psi dv dp _ _ _ (fun _ => HF)) HE).
  cbv beta in HD. clear HE HF.
  assert (P : forall t, psi t = psi 0).
  { apply vd_zero. intros s. destruct (HD s) as (A & _). eapply vd_eq; [|exact A]. vring. }
  split; [apply P|].
  assert (V : forall s, vec_derive dv s (vadd (vscale c (cross p (psi 0))) (mvmul (mass_gradient k p) (dp s)))).
  { intros s. destruct (HD s) as (_ & B & _). eapply vd_eq; [|exact B]. rewrite P. generalize (mvmul (mass_gradient k p) (dp s)). intros. vring. }
  split.
  - apply (hyper (fun t => dot (dp t) p) (fun t => dot (dv t) p)); auto.
    + intros s. apply vd_dot, HD.
    + intros s. evar_last; [apply vd_dot, V|].
      transitivity (c * dot (cross p (psi 0)) p + dot (mvmul (mass_gradient k p) (dp s)) p); [unfold dot; uv; ring|].
      rewrite mass_gradient_vert by auto. rewrite <- El. unfold dot; uv; field; lra.
  - intros u Hu m.
    assert (Em : m = c * dot (cross p (psi 0)) u / (w * w)) by (unfold m; field; lra). rewrite Em.
    apply (oscil (fun t => dot (dp t) u) (fun t => dot (dv t) u)); auto.
    + intros s. apply vd_dot, HD.
    + intros s. evar_last; [apply vd_dot, V|].
      transitivity (c * dot (cross p (psi 0)) u + dot (mvmul (mass_gradient k p) (dp s)) u); [unfold dot; uv; ring|].
      rewrite mass_gradient_hor by auto. rewrite <- Ew. field. lra.
Qed.

Lemma exp8 : 2000 < exp 8.
Proof.
  replace 8 with (/ 10 * INR 80) by (cbn; lra). rewrite <- Rpower_mult || idtac.
  assert (E : exp (/ 10 * INR 80) = exp (/ 10) ^ 80).
  { generalize 80%nat. induction n; [cbn; rewrite Rmult_0_r; apply exp_0|]. rewrite S_INR, Rmult_plus_distr_l, exp_plus, IHn, Rmult_1_r. cbn. ring. }
  rewrite E. pose proof (exp_ineq1_le (/ 10)). apply Rlt_le_trans with ((1 + / 10) ^ 80); [|apply pow_incr; lra].
  replace ((1 + / 10) ^ 80) with ((11 ^ 80) / (10 ^ 80)) by (replace (1 + / 10) with (11 * / 10) by field; rewrite Rpow_mult_distr, pow_inv; unfold Rdiv; ring || (unfold Rdiv; f_equal)).
  apply Rmult_lt_reg_r with (10 ^ 80); [apply pow_lt; lra|]. unfold Rdiv. rewrite Rmult_assoc, Rinv_l, Rmult_1_r by (apply pow_nonzero; lra).
  rewrite !pow_IZR, <- mult_IZR. apply IZR_lt. reflexivity.
Qed.
Lemma cosh_large x : 8 <= x -> 1000 < cosh x.
Proof.
  intros H. unfold cosh. pose proof exp8. pose proof (exp_pos (- x)). assert (exp 8 <= exp x) by (destruct H; [left; apply exp_increasing; auto|subst; right; auto]). lra.
Qed.
Lemma rate_bounds k a b n x : 0 < n -> 0 < x -> 0 <= a -> 0 < b -> x * x * n ^ 3 = k -> a * a * n ^ 3 < k -> k < b * b * n ^ 3 -> a < x < b.
Proof.
  intros Hn Hx Ha Hb E La Lb. assert (0 < n ^ 3) by (apply pow_lt; auto). rewrite <- E in *.
  apply Rmult_lt_reg_r in La; auto. apply Rmult_lt_reg_r in Lb; auto. split; nra.
Qed.

Lemma schuler p w : 6350000 <= norm p <= 6400000 -> 0 < w -> w * w * norm p ^ 3 = 398571280000000 -> 5030 < 2 * PI / w < 5100.
Proof.
  intros Hn Hw E. assert (0 < norm p) by lra. set (n := norm p) in *.
  assert (B1 : 6350000 ^ 3 <= n ^ 3) by (apply pow_incr; lra). assert (B2 : n ^ 3 <= 6400000 ^ 3) by (apply pow_incr; lra).
  assert (W : 0.001233 < w < 0.001248) by (apply (rate_bounds 398571280000000 _ _ n); lra).
  assert (P : 3.1415 < PI < 3.1416) by (split; [num_lt|num_lt]).
  split; [apply Rmult_lt_reg_r with w|apply Rmult_lt_reg_r with w]; auto; unfold Rdiv; rewrite ?Rmult_assoc, Rinv_l, ?Rmult_1_r by lra; lra.
Qed.
Lemma height_growth p l t : 6350000 <= norm p <= 6400000 -> 0 < l -> l * l * norm p ^ 3 = 2 * 398571280000000 -> 4600 <= t -> 1000 < cosh (l * t).
Proof.
  intros Hn Hl E Ht. set (n := norm p) in *.
  assert (B2 : n ^ 3 <= 6400000 ^ 3) by (apply pow_incr; lra).
  apply cosh_large. assert (0.00174 < l).
  { assert (0 < n ^ 3) by (apply pow_lt; lra). apply Rnot_le_lt. intros L. assert (l * l <= 0.00174 * 0.00174) by nra. nra. }
  nra.
Qed.
Lemma near_earth_errors c p Rm F0 G0 F G psi dv dp : 6350000 <= norm p <= 6400000 ->
  inertialErrorDynamics (vscale c p) (mass_gradient 398571280000000 p) Rm F0 G0 = (true, (F, G)) ->
  error_flow (fun _ => F) (fun _ => G) psi dv dp (fun _ => v3zero) (fun _ => v3zero) (fun _ => v3zero) ->
  (exists T, 5030 < T < 5100 /\ forall u t, dot u p = 0 -> dot (dp (t + T)) u = dot (dp t) u) /\
  (dot (dv 0) p = 0 -> dot (dp 0) p <> 0 -> forall t, 4600 <= t -> 1000 * Rabs (dot (dp 0) p) < Rabs (dot (dp t) p)).
Proof.
  intros Hn HF HE. assert (Hp : p <> v3zero) by (intros ->; rewrite norm_zero in Hn; lra).
  assert (N3 : 0 < norm p ^ 3) by (apply pow_lt; lra).
  set (w := sqrt (398571280000000 / norm p ^ 3)). set (l := sqrt (2 * 398571280000000 / norm p ^ 3)).
  assert (Pw : 0 < 398571280000000 / norm p ^ 3) by (apply Rdiv_lt_0_compat; lra).
  assert (Pl : 0 < 2 * 398571280000000 / norm p ^ 3) by (apply Rdiv_lt_0_compat; lra).
  assert (Hw : 0 < w) by (apply sqrt_lt_R0; auto). assert (Hl : 0 < l) by (apply sqrt_lt_R0; auto).
  assert (Ew : w * w * norm p ^ 3 = 398571280000000) by (unfold w; rewrite sqrt_sqrt by lra; field; lra).
  assert (El : l * l * norm p ^ 3 = 2 * 398571280000000) by (unfold l; rewrite sqrt_sqrt by lra; field; lra).
  pose proof (mass_errors _ _ _ _ _ _ _ _ _ _ _ Hp HF HE l w Hl El Hw Ew) as M. split.
  - exists (2 * PI / w). split; [apply (schuler p); auto|]. intros u t Hu.
    destruct (M t) as (_ & _ & M1). destruct (M (t + 2 * PI / w)) as (_ & _ & M2). specialize (M1 u Hu). specialize (M2 u Hu). cbv zeta in M1, M2.
    rewrite M1, M2. replace (w * (t + 2 * PI / w)) with (w * t + 2 * INR 1 * PI) by (cbn; field; lra). rewrite cos_period, sin_period. reflexivity.
  - intros V0 D0 t Ht. destruct (M t) as (_ & -> & _). rewrite V0. replace (dot (dp 0) p * cosh (l * t) + 0 * sinh (l * t) / l) with (dot (dp 0) p * cosh (l * t)) by (field; lra).
    pose proof (height_growth p l t Hn Hl El Ht). rewrite Rabs_mult, (Rabs_right (cosh _)) by lra. pose proof (Rabs_pos_lt _ D0). nra.
Qed.
