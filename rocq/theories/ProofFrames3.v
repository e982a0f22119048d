(** Lemmas about ecef2Lla: range, poles, round trips. *)
From Coq Require Import Reals Lra Lia Psatz.
From Verif Require Import Base BaseVec SpecEarth ModelGravity ModelFrames ProofVec ProofTrig ProofGravity ProofFrames.
Open Scope R_scope.

Definition ep2 : R := (gp_a * gp_a - gp_b * gp_b) / (gp_b * gp_b).
Lemma ep2_bounds : 0.0067 < ep2 < 0.0068.
Proof. unfold ep2, gp_a, gp_b. lra. Qed.
Lemma ep_sqrt : sqrt ep2 * sqrt ep2 = ep2.
Proof. apply sqrt_sqrt. pose proof ep2_bounds; lra. Qed.

Definition rho (r : vec3) : R := sqrt (vx r * vx r + vy r * vy r).
Definition th_of (r : vec3) : R := atan2 (gp_a * vz r) (gp_b * rho r).
Definition latY_of (r : vec3) : R := vz r + ep2 * gp_b * (sin (th_of r) * sin (th_of r) * sin (th_of r)).
Definition latX_of (r : vec3) : R := rho r - e2 * gp_a * (cos (th_of r) * cos (th_of r) * cos (th_of r)).
Definition lat_of (r : vec3) : R := atan2 (latY_of r) (latX_of r).
Definition lon_of (r : vec3) : R := atan2 (vy r) (vx r).

Lemma rho_nonneg r : 0 <= rho r.
Proof. apply sqrt_pos. Qed.

Lemma ecef2Lla_with_eq cosf r : ecef2Lla_with cosf r =
  match Rdivc (rho r) (cosf (lat_of r)) with
  | Ret q => Ret (true, (lat_of r, lon_of r, q - Nr (lat_of r)))
  | NonFinite => NonFinite | Undef => Undef | Throw => Throw | NoFuel => NoFuel
  end.
Proof.
  unfold ecef2Lla_with. cbv zeta. fold e2. fold ep2.
  rewrite sqrtc_ok by (pose proof e2_bounds; lra). cbn [bind].
  rewrite sqrtc_ok by (pose proof ep2_bounds; lra). cbn [bind].
  rewrite sqrtc_ok by nra. cbn [bind]. fold (rho r).
  rewrite e_sqrt, ep_sqrt. fold (th_of r). fold (latY_of r). fold (latX_of r). fold (lat_of r). fold (lon_of r).
  fold (W2 (lat_of r)).
  rewrite sqrtc_ok by (pose proof (W2_bounds (lat_of r)); lra). cbn [bind].
  rewrite Rdivc_ok by (pose proof (sW_pos (lat_of r)); lra). cbn [bind]. fold (Nr (lat_of r)).
  destruct (Rdivc (rho r) (cosf (lat_of r))) as [q| | | |]; cbn [bind]; auto.
  pose proof PI_RGT_0. pose proof (atan2_range (vy r) (vx r)) as B. fold (lon_of r) in B.
  rewrite fmodc_small; [|lra|apply Rabs_def1; lra]. cbn [bind].
  destruct (Rlt_dec PI (lon_of r)); [lra|reflexivity].
Qed.

Lemma ecef2Lla_ok r : cos (lat_of r) <> 0 ->
  ecef2Lla r = Ret (true, (lat_of r, lon_of r, rho r / cos (lat_of r) - Nr (lat_of r))).
Proof. intros. unfold ecef2Lla. rewrite ecef2Lla_with_eq, Rdivc_ok by auto. reflexivity. Qed.

(** Longitude is always in range. *)
Lemma ecef2Lla_longitude : forall r ok lat lon alt,
  ecef2Lla r = Ret (ok, (lat, lon, alt)) -> ok = true /\ - PI < lon <= PI /\
    vx r = sqrt (vx r * vx r + vy r * vy r) * cos lon /\
    vy r = sqrt (vx r * vx r + vy r * vy r) * sin lon.
Proof.
  intros r ok lat lon alt. unfold ecef2Lla. rewrite ecef2Lla_with_eq.
  destruct (Rdivc _ _); try discriminate. intros E; injection E as <- <- <- <-.
  split; auto. split; [apply atan2_range|].
  destruct (Req_dec (vx r) 0) as [X|X]; [destruct (Req_dec (vy r) 0) as [Y|Y]|].
  - rewrite X, Y, !Rmult_0_l, Rplus_0_l, sqrt_0. lra.
  - destruct (atan2_polar (vy r) (vx r)) as [C S]; auto. unfold lon_of. rewrite C, S.
    assert (0 < sqrt (vx r * vx r + vy r * vy r)) by (apply sqrt_lt_R0; nra). split; field; lra.
  - destruct (atan2_polar (vy r) (vx r)) as [C S]; auto. unfold lon_of. rewrite C, S.
    assert (0 < sqrt (vx r * vx r + vy r * vy r)) by (apply sqrt_lt_R0; nra). split; field; lra.
Qed.

(** cos/sin of the auxiliary angle. *)
Lemma th_polar r : 0 < rho r ->
  let D := sqrt (gp_b * rho r * (gp_b * rho r) + gp_a * vz r * (gp_a * vz r)) in
  0 < D /\ D * D = gp_b * rho r * (gp_b * rho r) + gp_a * vz r * (gp_a * vz r) /\
  cos (th_of r) = gp_b * rho r / D /\ sin (th_of r) = gp_a * vz r / D.
Proof.
  intros P D.
  assert (0 < gp_b * rho r) by (apply Rmult_lt_0_compat; auto; unfold gp_b; lra).
  assert (0 < gp_b * rho r * (gp_b * rho r) + gp_a * vz r * (gp_a * vz r)) by nra.
  split; [now apply sqrt_lt_R0|]. split; [apply sqrt_sqrt; lra|].
  apply atan2_polar. left; lra.
Qed.

Lemma latX_pos r : 0 < rho r -> 43000 * 43000 <= dot r r -> 0 < latX_of r.
Proof.
  intros P H. destruct (th_polar r P) as (D0 & DD & C & _).
  set (D := sqrt _) in *. unfold latX_of. rewrite C.
  assert (Hd : dot r r = rho r * rho r + vz r * vz r).
  { unfold rho. rewrite sqrt_sqrt by nra. unfold dot. ring. }
  rewrite Hd in H. set (p := rho r) in *. set (z := vz r) in *. clearbody p z D.
  assert (B : 0 < gp_b) by (unfold gp_b; lra).
  assert (K : gp_b * 43000 <= D).
  { assert ((gp_b * 43000) * (gp_b * 43000) <= D * D).
    { rewrite DD. assert (gp_b * gp_b <= gp_a * gp_a) by (unfold gp_a, gp_b; lra).
      assert (0 <= p * p) by nra. assert (0 <= z * z) by nra.
      assert (gp_b * gp_b * (z * z) <= gp_a * gp_a * (z * z)) by (apply Rmult_le_compat_r; auto).
      assert (gp_b * gp_b * (43000 * 43000) <= gp_b * gp_b * (p * p + z * z)) by (apply Rmult_le_compat_l; nra).
      lra. }
    assert (0 < gp_b * 43000) by lra. nra. }
  (* (b p / D)^3 <= b p / D and e2 a b / D < 1 *)
  set (u := gp_b * p / D).
  assert (U0 : 0 < u) by (apply Rdiv_lt_0_compat; auto; apply Rmult_lt_0_compat; auto).
  assert (U1 : u <= 1).
  { unfold u. apply Rmult_le_reg_r with D; auto. unfold Rdiv. rewrite Rmult_assoc, Rinv_l, Rmult_1_r, Rmult_1_l by lra.
    assert (0 < gp_b * p) by (apply Rmult_lt_0_compat; auto). nra. }
  assert (u * u * u <= u) by nra.
  assert (Z : e2 * gp_a * u < p).
  { unfold u. apply Rmult_lt_reg_r with D; auto.
    replace (e2 * gp_a * (gp_b * p / D) * D) with (p * (gp_b * (e2 * gp_a))) by (field; lra).
    apply Rmult_lt_compat_l; auto. apply Rlt_le_trans with (gp_b * 43000); auto.
    apply Rmult_lt_compat_l; auto. unfold e2, gp_f, gp_a. lra. }
  pose proof e2_bounds. assert (e2 * gp_a * (u * u * u) <= e2 * gp_a * u).
  { apply Rmult_le_compat_l; auto. unfold gp_a. lra. }
  lra.
Qed.

Lemma ecef2Lla_accepted : forall r M,
  0 < vx r * vx r + vy r * vy r -> 43000 * 43000 <= dot r r ->
  exists lat lon alt, ecef2Lla r = Ret (true, (lat, lon, alt)) /\
    - (PI/2) < lat < PI/2 /\ - PI < lon <= PI /\
    fst (computeREcef2Ned lat lon M) = true /\ fst (computeRNed2Ecef lat lon M) = true /\
    (exists r', lla2Ecef lat lon alt r = Ret (true, r')).
Proof.
  intros r M P H.
  assert (P' : 0 < rho r) by now apply sqrt_lt_R0.
  pose proof (latX_pos r P' H) as X.
  pose proof (atan2_pos_bound (latY_of r) (latX_of r) X) as B. fold (lat_of r) in B.
  pose proof (atan2_range (vy r) (vx r)) as L. fold (lon_of r) in L.
  exists (lat_of r), (lon_of r), (rho r / cos (lat_of r) - Nr (lat_of r)).
  assert (C : 0 < cos (lat_of r)) by (apply cos_gt_0; lra).
  split; [apply ecef2Lla_ok; lra|]. split; auto. split; auto.
  apply frame_guards. split; apply Rabs_le; lra.
Qed.

(** Near the centre the latitude leaves the range. *)
Lemma ecef2Lla_out_of_range : exists lon alt,
  ecef2Lla (V3 1000 0 0) = Ret (true, (PI, lon, alt)).
Proof.
  assert (Er : rho (V3 1000 0 0) = 1000).
  { unfold rho; cbn [vx vy]. replace (1000 * 1000 + 0 * 0) with (1000 * 1000) by ring. apply sqrt_square; lra. }
  assert (Et : th_of (V3 1000 0 0) = 0).
  { unfold th_of. rewrite Er. cbn [vz]. rewrite atan2_pos by (unfold gp_b; lra).
    replace (gp_a * 0 / (gp_b * 1000)) with 0 by (unfold gp_b; field). apply atan_0. }
  assert (El : lat_of (V3 1000 0 0) = PI).
  { unfold lat_of, latY_of, latX_of. rewrite Et, Er, sin_0, cos_0. cbn [vz].
    unfold atan2. pose proof e2_bounds.
    assert (1000 - e2 * gp_a * (1 * 1 * 1) < 0) by (unfold e2, gp_f, gp_a; lra).
    destruct (Rlt_dec 0 (1000 - e2 * gp_a * (1 * 1 * 1))); [lra|].
    destruct (Rlt_dec (1000 - e2 * gp_a * (1 * 1 * 1)) 0); [|lra].
    replace (0 + ep2 * gp_b * (0 * 0 * 0)) with 0 by ring.
    destruct (Rlt_dec 0 0); [lra|]. unfold Rdiv. rewrite Rmult_0_l, atan_0. ring. }
  exists (lon_of (V3 1000 0 0)). eexists. rewrite ecef2Lla_ok by (rewrite El, cos_PI; lra). rewrite El. reflexivity.
Qed.

(** ** On the polar axis *)
Lemma axis_lat z : z <> 0 -> lat_of (V3 0 0 z) = if Rlt_dec 0 z then PI/2 else - (PI/2).
Proof.
  intros Hz.
  assert (Er : rho (V3 0 0 z) = 0).
  { unfold rho; cbn [vx vy]. rewrite Rmult_0_l, Rplus_0_l. apply sqrt_0. }
  assert (Et : th_of (V3 0 0 z) = if Rlt_dec 0 z then PI/2 else - (PI/2)).
  { unfold th_of. rewrite Er. cbn [vz]. unfold atan2. rewrite Rmult_0_r.
    destruct (Rlt_dec 0 0); [lra|].
    destruct (Rlt_dec 0 z).
    - assert (0 < gp_a * z) by (apply Rmult_lt_0_compat; auto; unfold gp_a; lra).
      destruct (Rlt_dec 0 (gp_a * z)); lra.
    - assert (gp_a * z < 0) by (unfold gp_a; lra).
      destruct (Rlt_dec 0 (gp_a * z)); [lra|]. destruct (Rlt_dec (gp_a * z) 0); lra. }
  unfold lat_of, latY_of, latX_of. rewrite Et, Er. cbn [vz].
  assert (0 < ep2 * gp_b) by (pose proof ep2_bounds; unfold gp_b; lra).
  destruct (Rlt_dec 0 z).
  - rewrite sin_PI2, cos_PI2. replace (0 - e2 * gp_a * (0 * 0 * 0)) with 0 by ring.
    unfold atan2. destruct (Rlt_dec 0 0); [lra|].
    destruct (Rlt_dec 0 (z + ep2 * gp_b * (1 * 1 * 1))); lra.
  - rewrite sin_neg, cos_neg, sin_PI2, cos_PI2. replace (0 - e2 * gp_a * (0 * 0 * 0)) with 0 by ring.
    unfold atan2. destruct (Rlt_dec 0 0); [lra|].
    destruct (Rlt_dec 0 (z + ep2 * gp_b * (- (1) * - (1) * - (1)))); [lra|].
    destruct (Rlt_dec (z + ep2 * gp_b * (- (1) * - (1) * - (1))) 0); lra.
Qed.

(** Whatever non-zero value the library returns for cos(+-pi/2), the altitude is
    minus the polar radius of curvature, not |z| - b. *)
Lemma ecef2Lla_poles : forall cosf z, z <> 0 ->
  ecef2Lla_with cosf (V3 0 0 z) = NonFinite \/
  exists lat lon alt, ecef2Lla_with cosf (V3 0 0 z) = Ret (true, (lat, lon, alt)) /\ alt <= - 6378137.
Proof.
  intros cosf z Hz. rewrite ecef2Lla_with_eq.
  assert (Er : rho (V3 0 0 z) = 0).
  { unfold rho; cbn [vx vy]. rewrite Rmult_0_l, Rplus_0_l. apply sqrt_0. }
  rewrite Er. unfold Rdivc. destruct (Req_EM_T (cosf (lat_of (V3 0 0 z))) 0); auto.
  right. do 3 eexists. split; [reflexivity|].
  pose proof (Nr_bounds (lat_of (V3 0 0 z))) as B. unfold gp_a in B.
  unfold Rdiv. rewrite Rmult_0_l. lra.
Qed.
Lemma ecef2Lla_poles_exact : forall z, z <> 0 -> ecef2Lla (V3 0 0 z) = NonFinite.
Proof.
  intros z Hz. unfold ecef2Lla. rewrite ecef2Lla_with_eq, axis_lat by auto.
  destruct (Rlt_dec 0 z); [rewrite cos_PI2|rewrite cos_neg, cos_PI2]; now rewrite Rdivc_0.
Qed.

(** ** ECEF -> geodetic -> ECEF recovers x and y *)
Lemma ecef_round_trip_xy : forall r r0 lat lon alt,
  ecef2Lla r = Ret (true, (lat, lon, alt)) -> in_range lat lon ->
  exists z, lla2Ecef lat lon alt r0 = Ret (true, V3 (vx r) (vy r) z).
Proof.
  intros r r0 lat lon alt E I.
  destruct (ecef2Lla_longitude _ _ _ _ _ E) as (_ & _ & X & Y). fold (rho r) in X, Y.
  unfold ecef2Lla in E. rewrite ecef2Lla_with_eq in E.
  unfold Rdivc in E. destruct (Req_EM_T (cos (lat_of r)) 0) as [Z|Z]; [discriminate|].
  injection E as E1 E2 E3. rewrite lla2Ecef_ok by auto. unfold ecef.
  exists (((1 - e2) * Nr lat + alt) * sin lat). do 2 f_equal. rewrite <- E3. rewrite E1 in *.
  apply v3_eq; auto.
  - rewrite X at 1. field. auto.
  - rewrite Y at 1. field. auto.
Qed.
