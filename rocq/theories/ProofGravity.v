(** Lemmas about the gravity model. *)
From Coq Require Import Reals List Lra Lia Psatz.
From Verif Require Import Base BaseVec SpecRot SpecEarth ModelGravity ProofVec.
Open Scope R_scope.

(** ** simpleGravity *)

Lemma simpleGravity_ok r : r <> v3zero ->
  simpleGravity r = Ret (true, vscale (- 398571280000000 / (dot r r * norm r)) r).
Proof.
  intros H. unfold simpleGravity. pose proof (dot_pos r H). pose proof (norm_pos r H).
  rewrite !Rdivc_ok by lra. cbn [bind]. do 2 f_equal.
  destruct r as [x y z]. cbn [vx vy vz vscale].
  unfold vscale; cbn [vx vy vz]. unfold gp_G, gp_mE. apply v3_eq; field; lra.
Qed.

Lemma simple_gravity_field : forall r, r <> v3zero ->
  exists g k, simpleGravity r = Ret (true, g) /\ 0 < k /\ g = vscale (- k) r /\
    norm g * dot r r = 398571280000000.
Proof.
  intros r H. rewrite simpleGravity_ok by auto. pose proof (dot_pos r H). pose proof (norm_pos r H).
  assert (0 < dot r r * norm r) by (apply Rmult_lt_0_compat; auto).
  exists (vscale (- 398571280000000 / (dot r r * norm r)) r), (398571280000000 / (dot r r * norm r)).
  repeat split.
  - apply Rdiv_lt_0_compat; lra.
  - f_equal. field; lra.
  - rewrite norm_scale.
    replace (- 398571280000000 / (dot r r * norm r)) with (- (398571280000000 / (dot r r * norm r))) by (field; lra).
    rewrite Rabs_Ropp, Rabs_right by (apply Rle_ge, Rlt_le, Rdiv_lt_0_compat; lra).
    field; lra.
Qed.

Lemma simple_gravity_origin : simpleGravity v3zero = NonFinite.
Proof.
  unfold simpleGravity. replace (dot v3zero v3zero) with 0 by vec_ring. now rewrite Rdivc_0.
Qed.

Lemma vscale_nz k u : k <> 0 -> u <> v3zero -> vscale k u <> v3zero.
Proof.
  intros Hk Hu E. apply Hu. destruct u as [x y z]. unfold vscale, v3zero in *; cbn in *.
  injection E as Ex Ey Ez.
  apply Rmult_integral in Ex, Ey, Ez. destruct Ex, Ey, Ez; try contradiction. now subst.
Qed.

Lemma simple_gravity_scale : forall k r, 0 < k -> r <> v3zero ->
  exists g, simpleGravity r = Ret (true, g) /\
    simpleGravity (vscale k r) = Ret (true, vscale (/ (k * k)) g).
Proof.
  intros k r Hk H. eexists. split; [now apply simpleGravity_ok|].
  rewrite simpleGravity_ok by (apply vscale_nz; auto; lra). do 2 f_equal.
  rewrite norm_scale, Rabs_right by lra.
  replace (dot (vscale k r) (vscale k r)) with (k * k * dot r r) by vec_ring.
  pose proof (dot_pos r H). pose proof (norm_pos r H).
  set (D := dot r r) in *. set (n := norm r) in *. clearbody D n.
  destruct r as [x y z]. unfold vscale; cbn [vx vy vz]. apply v3_eq; field; lra.
Qed.

Lemma simple_gravity_rotation : forall A r, is_rotation A -> r <> v3zero ->
  exists g, simpleGravity r = Ret (true, g) /\ simpleGravity (mvmul A r) = Ret (true, mvmul A g).
Proof.
  intros A r [Hd _] H. eexists. split; [now apply simpleGravity_ok|].
  assert (E : dot (mvmul A r) (mvmul A r) = dot r r) by apply Hd.
  rewrite simpleGravity_ok.
  - unfold norm. rewrite E. now rewrite mvmul_vscale.
  - intros Z. rewrite Z in E. pose proof (dot_pos r H).
    replace (dot v3zero v3zero) with 0 in E by vec_ring. lra.
Qed.

(** ** gravityNed *)

(** Closed forms, used only in proofs; [t] is sin^2(lat). *)
Definition g_num (t : R) := gp_a * gp_gEq * (1 - t) + gp_b * gp_gPole * t.
Definition g_den (t : R) := gp_a * gp_a * (1 - t) + gp_b * gp_b * t.
Definition g_ell (t : R) := g_num t / sqrt (g_den t).
Definition g_m := (gp_wE * gp_wE) * (gp_a * gp_a) * gp_b / gp_kM.
Definition g_alt (t h : R) :=
  1 - ((2/gp_a)*(1+gp_f+g_m-(2*gp_f*t))*h) + (3*(h * h)/(gp_a * gp_a)).

Lemma t_range x : 0 <= sin x * sin x <= 1.
Proof. pose proof (cs1 x). nra. Qed.

Lemma g_den_pos t : 0 <= t <= 1 -> 0 < g_den t.
Proof. intros. unfold g_den, gp_a, gp_b. nra. Qed.
Lemma g_num_pos t : 0 <= t <= 1 -> 0 < g_num t.
Proof. intros. unfold g_num, gp_a, gp_b, gp_gEq, gp_gPole. lra. Qed.
Lemma g_ell_pos t : 0 <= t <= 1 -> 0 < g_ell t.
Proof.
  intros. apply Rdiv_lt_0_compat; [now apply g_num_pos|]. apply sqrt_lt_R0. now apply g_den_pos.
Qed.

Lemma gravityNed_ok lat h : gravityNed lat h =
  Ret (true, V3 (- (808/100) * (1/1000000) * (h/1000) * sin (2 * lat)) 0
     (g_ell (sin lat * sin lat) * g_alt (sin lat * sin lat) h)).
Proof.
  unfold gravityNed. pose proof (t_range lat) as T. pose proof (cs1 lat) as C.
  assert (Ec : cos lat * cos lat = 1 - sin lat * sin lat) by lra. rewrite Ec.
  fold (g_den (sin lat * sin lat)). fold (g_num (sin lat * sin lat)).
  pose proof (g_den_pos _ T). rewrite sqrtc_ok by lra. cbn [bind].
  rewrite Rdivc_ok by (apply Rgt_not_eq, sqrt_lt_R0; auto). cbn [bind]. reflexivity.
Qed.

Lemma g_ell_mono s t : 0 <= s -> s < t -> t <= 1 -> g_ell s < g_ell t.
Proof.
  intros Hs Hst Ht. unfold g_ell.
  assert (Ds : 0 < g_den s) by (apply g_den_pos; lra).
  assert (Dt : 0 < g_den t) by (apply g_den_pos; lra).
  assert (Hn : g_num s < g_num t).
  { unfold g_num, gp_a, gp_b, gp_gEq, gp_gPole. lra. }
  assert (Hd : g_den t < g_den s).
  { unfold g_den, gp_a, gp_b. lra. }
  assert (Hd' : sqrt (g_den t) < sqrt (g_den s)) by (apply sqrt_lt_1; lra).
  pose proof (sqrt_lt_R0 _ Ds). pose proof (sqrt_lt_R0 _ Dt).
  pose proof (g_num_pos s ltac:(lra)).
  unfold Rdiv. apply Rmult_gt_0_lt_compat; auto.
  - apply Rinv_0_lt_compat; auto.
  - lra.
  - apply Rinv_lt_contravar; auto. apply Rmult_lt_0_compat; auto.
Qed.

Lemma g_ell_0 : g_ell 0 = gp_gEq.
Proof.
  unfold g_ell, g_num, g_den. rewrite Rminus_0_r, !Rmult_0_r, !Rmult_1_r, !Rplus_0_r.
  rewrite sqrt_square by (unfold gp_a; lra). field. unfold gp_a; lra.
Qed.
Lemma g_ell_1 : g_ell 1 = gp_gPole.
Proof.
  unfold g_ell, g_num, g_den. rewrite Rminus_diag_eq, !Rmult_0_r, !Rmult_1_r, !Rplus_0_l by reflexivity.
  rewrite sqrt_square by (unfold gp_b; lra). field. unfold gp_b; lra.
Qed.
Lemma g_alt_0 t : g_alt t 0 = 1.
Proof. unfold g_alt. field. unfold gp_a; lra. Qed.

Lemma gp_f_bounds : 0.0033 < gp_f < 0.0034.
Proof. unfold gp_f; lra. Qed.
Lemma g_m_bounds : 0.0034 < g_m < 0.0035.
Proof. unfold g_m, gp_wE, gp_a, gp_b, gp_kM; lra. Qed.

Lemma gravity_ellipsoid lat : gravityNed lat 0 = Ret (true, V3 0 0 (g_ell (sin lat * sin lat))).
Proof.
  rewrite gravityNed_ok, g_alt_0. do 2 f_equal. apply v3_eq; try ring. field.
Qed.

Lemma gravity_bounds : forall lat, exists g,
  gravityNed lat 0 = Ret (true, V3 0 0 g) /\ 97803267715 / 10000000000 <= g <= 98321863685 / 10000000000.
Proof.
  intros lat. eexists. split; [apply gravity_ellipsoid|].
  pose proof (t_range lat) as T. set (t := sin lat * sin lat) in *. clearbody t.
  change (97803267715 / 10000000000) with gp_gEq. change (98321863685 / 10000000000) with gp_gPole.
  rewrite <- g_ell_0, <- g_ell_1. split.
  - destruct (Req_dec t 0) as [->|]; [lra|]. left. apply g_ell_mono; lra.
  - destruct (Req_dec t 1) as [->|]; [lra|]. left. apply g_ell_mono; lra.
Qed.

Lemma gravity_extremes :
  gravityNed 0 0 = Ret (true, V3 0 0 (97803267715 / 10000000000)) /\
  gravityNed (PI/2) 0 = Ret (true, V3 0 0 (98321863685 / 10000000000)) /\
  gravityNed (-(PI/2)) 0 = Ret (true, V3 0 0 (98321863685 / 10000000000)).
Proof.
  rewrite !gravity_ellipsoid. rewrite sin_0, sin_neg, sin_PI2.
  change (97803267715 / 10000000000) with gp_gEq. change (98321863685 / 10000000000) with gp_gPole.
  rewrite <- g_ell_0, <- g_ell_1.
  replace (0 * 0) with 0 by ring. replace (1 * 1) with 1 by ring. replace (-1 * -1) with 1 by ring.
  replace (- (1) * - (1)) with 1 by ring.
  repeat split.
Qed.

Lemma gravity_monotone : forall l1 l2, 0 <= l1 -> l1 < l2 -> l2 <= PI/2 ->
  down (gravityNed l1 0) < down (gravityNed l2 0) /\
  down (gravityNed (- l1) 0) < down (gravityNed (- l2) 0).
Proof.
  intros l1 l2 H1 H2 H3. pose proof PI_RGT_0.
  rewrite !gravity_ellipsoid. unfold down; cbn [vec_of vz]. rewrite !sin_neg, !Rmult_opp_opp.
  assert (0 <= sin l1) by (apply sin_ge_0; lra).
  assert (sin l1 < sin l2) by (apply sin_increasing_1; lra).
  pose proof (SIN_bound l2).
  split; apply g_ell_mono; nra.
Qed.

Lemma gravity_symmetry : forall lat h, exists gn gd,
  gravityNed lat h = Ret (true, V3 gn 0 gd) /\ gravityNed (- lat) h = Ret (true, V3 (- gn) 0 gd).
Proof.
  intros lat h. exists (- (808/100) * (1/1000000) * (h/1000) * sin (2 * lat)), 
    (g_ell (sin lat * sin lat) * g_alt (sin lat * sin lat) h).
  rewrite !gravityNed_ok. split; [reflexivity|].
  rewrite sin_neg, Rmult_opp_opp. do 2 f_equal. apply v3_eq; auto.
  replace (2 * - lat) with (- (2 * lat)) by ring. rewrite sin_neg. ring.
Qed.

(** The north component: zero on the ellipsoid, at the equator and the poles,
    pointing to the equator above the ellipsoid. *)
Lemma gravity_north_zero : forall lat h, h = 0 \/ lat = 0 \/ lat = PI/2 \/ lat = -(PI/2) ->
  north (gravityNed lat h) = 0.
Proof.
  intros lat h H. rewrite gravityNed_ok. unfold north; cbn [vec_of vx].
  destruct H as [->|[->|[->| ->]]].
  - field.
  - replace (2 * 0) with 0 by ring. rewrite sin_0. ring.
  - replace (2 * (PI/2)) with PI by field. rewrite sin_PI. ring.
  - replace (2 * -(PI/2)) with (-PI) by field. rewrite sin_neg, sin_PI. ring.
Qed.
Lemma gravity_north_sign : forall lat h, 0 < h ->
  (0 < lat < PI/2 -> north (gravityNed lat h) < 0) /\
  (-(PI/2) < lat < 0 -> 0 < north (gravityNed lat h)).
Proof.
  intros lat h Hh. rewrite gravityNed_ok. unfold north; cbn [vec_of vx]. split; intros H.
  - assert (0 < sin (2 * lat)) by (apply sin_gt_0; lra).
    assert (0 < h * sin (2 * lat)) by (apply Rmult_lt_0_compat; auto). lra.
  - assert (0 < sin (- (2 * lat))) by (apply sin_gt_0; lra). rewrite sin_neg in *.
    assert (0 < h * - sin (2 * lat)) by (apply Rmult_lt_0_compat; auto). lra.
Qed.
(** Magnitude of the north component: 8.08e-9 per metre of height, times sin(2 lat). *)
Lemma gravity_north_value : forall lat h,
  north (gravityNed lat h) = - (808 / 100000000000) * h * sin (2 * lat).
Proof. intros. rewrite gravityNed_ok. unfold north; cbn [vec_of vx]. field. Qed.

Lemma gravity_positive : forall lat h, 0 < down (gravityNed lat h).
Proof.
  intros lat h. rewrite gravityNed_ok. unfold down; cbn [vec_of vz]. pose proof (t_range lat) as T.
  set (t := sin lat * sin lat) in *. clearbody t.
  apply Rmult_lt_0_compat; [now apply g_ell_pos|].
  unfold g_alt. pose proof gp_f_bounds. pose proof g_m_bounds.
  set (k := 1 + gp_f + g_m - 2 * gp_f * t).
  assert (0.99 < k < 1.01) by (unfold k; nra).
  set (x := h / gp_a).
  replace (1 - 2 / gp_a * k * h + 3 * (h * h) / (gp_a * gp_a)) with (1 - 2 * k * x + 3 * (x * x))
    by (unfold x, gp_a; field).
  clearbody k x. assert (k * k < 2) by nra.
  pose proof (Rle_0_sqr (3 * x - k)) as Q. unfold Rsqr in Q. lra.
Qed.

Lemma gravity_decreasing : forall lat h1 h2, 0 <= h1 -> h1 < h2 -> h2 <= 2100000 ->
  down (gravityNed lat h2) < down (gravityNed lat h1).
Proof.
  intros lat h1 h2 H1 H2 H3. rewrite !gravityNed_ok. unfold down; cbn [vec_of vz]. pose proof (t_range lat) as T.
  set (t := sin lat * sin lat) in *. clearbody t.
  apply Rmult_lt_compat_l; [now apply g_ell_pos|].
  unfold g_alt. pose proof gp_f_bounds. pose proof g_m_bounds.
  set (k := 1 + gp_f + g_m - 2 * gp_f * t).
  assert (1 < k < 1.01) by (unfold k; nra).
  clearbody k. unfold gp_a.
  assert (3 * (h2 * h2) / (6378137 * 6378137) - 3 * (h1 * h1) / (6378137 * 6378137)
          < 2 / 6378137 * k * h2 - 2 / 6378137 * k * h1); [|lra].
  replace (3 * (h2 * h2) / (6378137 * 6378137) - 3 * (h1 * h1) / (6378137 * 6378137))
    with ((h2 - h1) * (3 * (h1 + h2) / (6378137 * 6378137))) by field.
  replace (2 / 6378137 * k * h2 - 2 / 6378137 * k * h1) with ((h2 - h1) * (2 * k / 6378137)) by field.
  apply Rmult_lt_compat_l; [lra|]. lra.
Qed.

(** Free-air gradient at the equator: removing height h and going up changes
    gravity by the factor 1 - 2(1+f+m)h/a + 3h^2/a^2 with m = w^2 a^2 b / GM. *)
Lemma gravity_equator_profile : forall h,
  down (gravityNed 0 h) =
  97803267715/10000000000 *
  (1 - 2 * (1 + 1/(298257222101/1000000000)
     + (7292115/100000000000 * (7292115/100000000000)) * (6378137 * 6378137) * (63567523141/10000) / 398600500000000)
     * (h / 6378137) + 3 * (h / 6378137) * (h / 6378137)).
Proof.
  intros h. rewrite gravityNed_ok. unfold down; cbn [vec_of vz]. rewrite sin_0, Rmult_0_r, g_ell_0.
  unfold g_alt, g_m, gp_f, gp_wE, gp_a, gp_b, gp_kM, gp_gEq. field.
Qed.
