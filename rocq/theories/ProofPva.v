(** Proofs about the error dynamics matrices. *)
From Coq Require Import Reals List Lra Lia.
From Coquelicot Require Import Coquelicot.
From Verif Require Import Base BaseVec SpecRot SpecEarth SpecPva ModelGravity ModelNavUtils ModelPva
  ProofVec ProofGravity ProofFrames ProofFrames2 ProofFrames3 ProofNavUtils.
Import ListNotations.
Open Scope R_scope.

Lemma is9_inv A : is9x9 A = true <-> size9 A.
Proof. unfold is9x9, size9. rewrite Bool.andb_true_iff, !PeanoNat.Nat.eqb_eq. tauto. Qed.

Ltac l9_eq := unfold l9; repeat (apply (f_equal2 (@cons R))); try reflexivity;
  unfold v3zero, vadd, vsub, vneg, vscale, cross, mvmul; cbn [vx vy vz m11 m12 m13 m21 m22 m23 m31 m32 m33].

Ltac applyF := unfold mx_apply; cbn [set_block mx_zero mx_rows mx_cols mx_of_rows]; cbn [seq map fold_right];
  cbn [mx_at set_block mx_of_rows mx_zero MX_of_mat3 Nat.leb Nat.ltb Nat.add andb Nat.sub nth l9 mx_rows mx_cols mneg mscale madd msub mmul m3id m11 m12 m13 m21 m22 m23 m31 m32 m33].

Lemma inertial_blocks a Ga Rm F0 G0 : size9 F0 -> size9 G0 ->
  exists F G, inertialErrorDynamics a Ga Rm F0 G0 = (true, (F, G)) /\
  (mx_rows F = 9 /\ mx_cols F = 9 /\ mx_rows G = 9 /\ mx_cols G = 9)%nat /\
  (forall psi dv dp, mx_apply F (l9 psi dv dp) = l9 v3zero (vadd (cross a psi) (mvmul Ga dp)) dv) /\
  (forall dw df dg, mx_apply G (l9 dw df dg) = l9 (vneg (mvmul Rm dw)) (vadd (mvmul Rm df) dg) v3zero).
Proof.
  intros HF HG. apply is9_inv in HF. apply is9_inv in HG. unfold inertialErrorDynamics. rewrite HF, HG. cbn [negb skewSymmetric].
  do 2 eexists. split; [reflexivity|]. split; [repeat split|].
  split; intros [a1 a2 a3] [b1 b2 b3] [c1 c2 c3]; applyF.
  - destruct a, Ga. cbn.  l9_eq; ring.
  - destruct Rm. cbn. l9_eq; ring.
Qed.

Lemma ecef_blocks a Ga Rm Om F0 G0 : size9 F0 -> size9 G0 ->
  exists F G, ecefErrorDynamics a Ga Rm Om F0 G0 = (true, (F, G)) /\
  (mx_rows F = 9 /\ mx_cols F = 9 /\ mx_rows G = 9 /\ mx_cols G = 9)%nat /\
  (forall psi dv dp, mx_apply F (l9 psi dv dp) =
     l9 (vneg (mvmul Om psi))
        (vadd (vadd (cross a psi) (vscale (-2) (mvmul Om dv))) (vsub (mvmul Ga dp) (mvmul Om (mvmul Om dp)))) dv) /\
  (forall dw df dg, mx_apply G (l9 dw df dg) = l9 (vneg (mvmul Rm dw)) (vadd (mvmul Rm df) dg) v3zero).
Proof.
  intros HF HG. apply is9_inv in HF. apply is9_inv in HG. unfold ecefErrorDynamics. rewrite HF, HG. cbn [negb skewSymmetric].
  do 2 eexists. split; [reflexivity|]. split; [repeat split|].
  split; intros [a1 a2 a3] [b1 b2 b3] [c1 c2 c3]; applyF.
  - destruct a, Ga, Om. cbn. l9_eq; ring.
  - destruct Rm. cbn. l9_eq; ring.
Qed.

Lemma guards9 a Ga Rm Om lla ld ldd F0 G0 : ~ (size9 F0 /\ size9 G0) ->
  inertialErrorDynamics a Ga Rm F0 G0 = (false, (F0, G0)) /\
  ecefErrorDynamics a Ga Rm Om F0 G0 = (false, (F0, G0)) /\
  nedErrorDynamics a Ga Rm lla ld ldd F0 G0 = Ret (false, (F0, G0)).
Proof.
  intros H. rewrite <- !is9_inv in H. unfold inertialErrorDynamics, ecefErrorDynamics, nedErrorDynamics.
  destruct (is9x9 F0), (is9x9 G0); cbn [negb]; auto. now destruct H.
Qed.

(** ** Radii *)
Lemma earth_rate_ok : earth_rate = gp_wE.
Proof. unfold earth_rate, gp_wE. field. Qed.
Lemma earth_e2_ok : earth_e2 = e2.
Proof. unfold earth_e2, e2, earth_f, gp_f. ring. Qed.
Lemma earth_w_ok lat : earth_w lat = W2 lat.
Proof. unfold earth_w, W2. rewrite earth_e2_ok. ring. Qed.
Lemma radius_M_ok lat : radius_M lat = Mr lat.
Proof. unfold radius_M, Mr. now rewrite earth_w_ok, earth_e2_ok. Qed.
Lemma radius_N_ok lat : radius_N lat = Nr lat.
Proof. unfold radius_N, Nr. now rewrite earth_w_ok. Qed.

Lemma radius_G_pos lat : 0 < radius_G lat.
Proof.
  unfold radius_G. rewrite earth_w_ok, earth_e2_ok. pose proof (W2_bounds lat). pose proof e2_bounds.
  apply Rdiv_lt_0_compat; [|lra]. apply Rmult_lt_0_compat; [unfold earth_a; lra|]. apply sqrt_lt_R0. lra.
Qed.
Lemma radius_G_sq lat : radius_G lat * radius_G lat = Nr lat * Mr lat.
Proof.
  unfold radius_G, Nr, Mr. rewrite earth_w_ok, earth_e2_ok. pose proof (W2_bounds lat). pose proof e2_bounds.
  pose proof (sW_pos lat). pose proof (sW_sq lat) as S. pose proof (sqrt_sqrt (1 - e2) ltac:(lra)) as Q.
  change earth_a with gp_a. set (q := sqrt (1 - e2)) in *. set (s := sqrt (W2 lat)) in *.
  assert (Z : 1 - e2 = q * q) by lra. rewrite Z, <- S. field. lra.
Qed.
Lemma radius_G_ok lat : sqrt (Nr lat * Mr lat) = radius_G lat.
Proof. rewrite <- radius_G_sq. apply sqrt_square. pose proof (radius_G_pos lat). lra. Qed.

(** M <= Gauss <= N, strictly away from the poles. *)
Lemma radii_order lat : cos lat <> 0 -> Mr lat < radius_G lat < Nr lat.
Proof.
  intros Hc. pose proof (radius_G_pos lat). pose proof (radius_G_sq lat) as S.
  pose proof (Mr_bounds lat). pose proof (Nr_bounds lat) as B. unfold gp_a in B.
  assert (L : Mr lat < Nr lat).
  { assert (E : Nr lat = Mr lat * (W2 lat / (1 - e2))).
    { unfold Nr, Mr. pose proof (sW_pos lat). pose proof (W2_bounds lat). pose proof e2_bounds. field. lra. }
    assert (1 < W2 lat / (1 - e2)).
    { pose proof e2_bounds. apply Rmult_lt_reg_r with (1 - e2); [lra|]. unfold Rdiv. rewrite Rmult_assoc, Rinv_l by lra.
      unfold W2. pose proof (sin2_cos2 lat) as T. unfold Rsqr in T. assert (0 < cos lat * cos lat) by nra. nra. }
    rewrite E. nra. }
  split; nra.
Qed.

(** ** The NED dynamics *)
(** The first three components of F x. *)
Definition ned_u (lat latDot lonDot : R) (psi dd dp : vec3) : vec3 :=
  let l1 := lonDot + gp_wE in
  V3 (- l1 * sin lat * vy psi + latDot * vz psi + cos lat * vy dd - l1 * sin lat * vx dp)
     (l1 * sin lat * vx psi + l1 * cos lat * vz psi - vx dd)
     (- latDot * vx psi - l1 * cos lat * vy psi - sin lat * vy dd - l1 * cos lat * vx dp).
Definition ned_v (aN : vec3) (G33 lat h latDot lonDot hDot latDDot lonDDot : R) (psi dd dp : vec3) : vec3 :=
  let l1 := lonDot + gp_wE in let l2 := lonDot + 2 * gp_wE in
  let r := radius_G lat + h in
  let tlat := sin lat / cos lat in
  V3 (vx (cross aN psi) / r - 2 * hDot / r * vx dd - l1 * sin (2 * lat) * vy dd - 2 * latDot / r * vz dd
        - lonDot * l2 * cos (2 * lat) * vx dp - (latDDot + 0.5 * lonDot * l2 * sin (2 * lat)) / r * vz dp)
     (vy (cross aN psi) / (r * cos lat) + 2 * l1 * tlat * vx dd + 2 * (latDot * tlat - hDot / r) * vy dd
        - 2 * l1 / r * vz dd + (2 * l1 * (latDot + hDot * tlat / r) + lonDDot * tlat) * vx dp
        + (2 * latDot * tlat - lonDDot) / r * vz dp)
     (- vz (cross aN psi) + 2 * r * latDot * vx dd + 2 * r * l1 * (cos lat * cos lat) * vy dd
        - r * lonDot * l2 * sin (2 * lat) * vx dp
        + (latDot * latDot + lonDot * l2 * (cos lat * cos lat) + G33) * vz dp).

Lemma ned_ok aN GN RS lla ld ldd F0 G0 : size9 F0 -> size9 G0 ->
  ned_regular (vx lla) (vz lla) ->
  exists F G, nedErrorDynamics aN GN RS lla ld ldd F0 G0 = Ret (true, (F, G)) /\
  (mx_rows F = 9 /\ mx_cols F = 9 /\ mx_rows G = 9 /\ mx_cols G = 9)%nat /\
  (forall psi dd dp, mx_apply F (l9 psi dd dp) =
     l9 (ned_u (vx lla) (vx ld) (vy ld) psi dd dp)
        (ned_v aN (m33 GN) (vx lla) (vz lla) (vx ld) (vy ld) (vz ld) (vx ldd) (vy ldd) psi dd dp) dd) /\
  (forall dw df dg, mx_apply G (l9 dw df dg) =
     l9 (vneg (mvmul RS dw))
        (let q := vadd (mvmul RS df) dg in
         V3 (vx q / (radius_M (vx lla) + vz lla)) (vy q / ((radius_N (vx lla) + vz lla) * cos (vx lla))) (- vz q)) v3zero).
Proof.
  intros HF HG (Hc & Hr & HM & HN). apply is9_inv in HF. apply is9_inv in HG.
  destruct lla as [lat lon h], ld as [latDot lonDot hDot], ldd as [latDDot lonDDot hDDot].
  rewrite radius_M_ok, radius_N_ok in *. cbn [vx vy vz] in *.
  unfold nedErrorDynamics. rewrite HF, HG. cbn [negb vx vy vz]. cbv zeta.
  unfold tanc. rewrite (Rdivc_ok (sin lat)) by auto. cbn [bind].
  rewrite esq_e2. fold (W2 lat). pose proof (W2_bounds lat). pose proof (sW_pos lat).
  rewrite sqrtc_ok by lra. cbn [bind]. rewrite (Rdivc_ok gp_a) by lra. cbn [bind]. fold (Nr lat).
  rewrite Rpower_3_2 by lra. rewrite (Rdivc_ok (gp_a * _)) by (apply Rmult_integral_contrapositive; lra). cbn [bind].
  fold (Mr lat). pose proof (Mr_bounds lat). pose proof (Nr_bounds lat) as B. unfold gp_a in B.
  rewrite sqrtc_ok by nra. cbn [bind]. rewrite radius_G_ok.
  assert (radius_G lat * 1 + h <> 0) by lra.
  assert ((radius_G lat + h) * cos lat <> 0) by (now apply Rmult_integral_contrapositive).
  assert (- (radius_G lat + h) <> 0) by lra.
  rewrite !Rdivc_ok by auto. cbn [bind].
  unfold minvc. rewrite Rdivc_ok; cycle 1.
  { unfold mdet. cbn [m11 m12 m13 m21 m22 m23 m31 m32 m33]. intros Z.
    assert ((Mr lat + h) * ((Nr lat + h) * cos lat) <> 0) as Y.
    { repeat (apply Rmult_integral_contrapositive; split); auto. }
    apply Y. lra. }
  cbn [bind]. do 2 eexists. split; [reflexivity|]. split; [repeat split|].
  split; intros [p1 p2 p3] [d1 d2 d3] [x1 x2 x3]; applyF.
  - unfold ned_u, ned_v. destruct aN as [a1 a2 a3]. cbv zeta. unfold cross. cbn [vx vy vz]. l9_eq; unfold Rdiv; try ring.
    all: cbn [vx vy vz]; try ring.
    + rewrite Rinv_opp by auto. ring.
  - destruct RS as [r1 r2 r3 r4 r5 r6 r7 r8 r9]. unfold mdet, madj. cbv zeta. l9_eq; cbn [vx vy vz m11 m12 m13 m21 m22 m23 m31 m32 m33]; try ring; field; auto.
Qed.

Lemma ned_nonfinite aN GN RS lla ld ldd F0 G0 : size9 F0 -> size9 G0 ->
  ~ ned_regular (vx lla) (vz lla) -> nedErrorDynamics aN GN RS lla ld ldd F0 G0 = NonFinite.
Proof.
  intros HF HG Hn. apply is9_inv in HF. apply is9_inv in HG.
  destruct lla as [lat lon h]. unfold ned_regular in Hn. rewrite radius_M_ok, radius_N_ok in *. cbn [vx vy vz] in *.
  unfold nedErrorDynamics. rewrite HF, HG. cbn [negb vx vy vz]. cbv zeta.
  unfold tanc. destruct (Req_dec (cos lat) 0) as [Z|Hc]; [now rewrite Z, Rdivc_0|].
  rewrite (Rdivc_ok (sin lat)) by auto. cbn [bind].
  rewrite esq_e2. fold (W2 lat). pose proof (W2_bounds lat). pose proof (sW_pos lat).
  rewrite sqrtc_ok by lra. cbn [bind]. rewrite (Rdivc_ok gp_a) by lra. cbn [bind]. fold (Nr lat).
  rewrite Rpower_3_2 by lra. rewrite (Rdivc_ok (gp_a * _)) by (apply Rmult_integral_contrapositive; lra). cbn [bind].
  fold (Mr lat). pose proof (Mr_bounds lat). pose proof (Nr_bounds lat) as B. unfold gp_a in B.
  rewrite sqrtc_ok by nra. cbn [bind]. rewrite radius_G_ok.
  destruct (Req_dec (radius_G lat + h) 0) as [Z|Hr]; [now rewrite Z, Rdivc_0|].
  assert ((radius_G lat + h) * cos lat <> 0) by (now apply Rmult_integral_contrapositive).
  assert (- (radius_G lat + h) <> 0) by lra.
  rewrite !Rdivc_ok by auto. cbn [bind].
  unfold minvc. 
  replace (mdet _) with 0; [now rewrite Rdivc_0|].
  unfold mdet. cbn [m11 m12 m13 m21 m22 m23 m31 m32 m33].
  destruct (Req_dec (Mr lat + h) 0) as [Z|HM]; [rewrite Z; ring|].
  destruct (Req_dec (Nr lat + h) 0) as [Z|HN]; [rewrite Z; ring|].
  now destruct Hn.
Qed.

Lemma ned_u_deriv lat latDot lonDot psi dd dp :
  exists dw, vec_derive (fun t => w_in (latDot + t * vx dd) (lonDot + t * vy dd) (lat + t * vx dp)) 0 dw /\
    ned_u lat latDot lonDot psi dd dp = vadd (vneg (cross (w_in latDot lonDot lat) psi)) dw.
Proof.
  exists (V3 (vy dd * cos lat - (lonDot + earth_rate) * sin lat * vx dp) (- vx dd)
             (- vy dd * sin lat - (lonDot + earth_rate) * cos lat * vx dp)).
  split.
  - unfold w_in. split; [|split]; cbn [vx vy vz]; auto_derive; auto; rewrite ?Rmult_0_l, ?Rplus_0_r; ring.
  - unfold ned_u, w_in, vadd, vneg, cross. rewrite earth_rate_ok. cbv zeta. cbn [vx vy vz]. apply v3_eq; ring.
Qed.

Section NedRates.
Variables (aN : vec3) (lat h latDot lonDot hDot : R) (psi dd dp : vec3).
Let rho := radius_G lat.
Hypothesis Hc : cos lat <> 0.
Hypothesis Hr : rho + h <> 0.
Let Z0 x y : x + 0 * y = x. Proof. ring. Qed.
Let cs : cos lat * cos lat = 1 - sin lat * sin lat.
Proof. pose proof (sin2_cos2 lat) as T. unfold Rsqr in T. lra. Qed.

Lemma ned_v_lat G33 lonDDot :
  is_derive (fun t => lat_acc rho (vx aN + t * vx (cross aN psi)) (latDot + t * vx dd) (lonDot + t * vy dd)
                        (hDot + t * vz dd) (lat + t * vx dp) (h + t * vz dp)) 0
    (vx (ned_v aN G33 lat h latDot lonDot hDot (lat_acc rho (vx aN) latDot lonDot hDot lat h) lonDDot psi dd dp)).
Proof.
  unfold lat_acc, ned_v. cbv zeta. cbn [vx vy vz]. fold rho. clearbody rho.
  auto_derive; [now rewrite Z0|]. rewrite !Z0. rewrite earth_rate_ok.
  rewrite sin_2a, cos_2a. replace 0.5 with (1/2) by lra. unfold cross. cbn [vx vy vz]. field. auto.
Qed.

Lemma ned_v_lon G33 latDDot :
  is_derive (fun t => lon_acc rho (vy aN + t * vy (cross aN psi)) (latDot + t * vx dd) (lonDot + t * vy dd)
                        (hDot + t * vz dd) (lat + t * vx dp) (h + t * vz dp)) 0
    (vy (ned_v aN G33 lat h latDot lonDot hDot latDDot (lon_acc rho (vy aN) latDot lonDot hDot lat h) psi dd dp)
       + 2 * (lonDot + earth_rate - 1) * latDot * tan lat / (rho + h) * vz dp).
Proof.
  unfold lon_acc, ned_v, tan. cbv zeta. cbn [vx vy vz]. fold rho. clearbody rho.
  auto_derive. { rewrite !Z0. repeat split; auto; now apply Rmult_integral_contrapositive. }
  rewrite !Z0. rewrite earth_rate_ok.
  unfold cross. cbn [vx vy vz]. field_simplify_eq; [|auto]. ring [cs].
Qed.

Lemma ned_v_h G33 latDDot lonDDot g : is_derive g h (- G33) ->
  is_derive (fun t => h_acc rho (vz aN + t * vz (cross aN psi)) (latDot + t * vx dd) (lonDot + t * vy dd)
                        (lat + t * vx dp) (h + t * vz dp) (g (h + t * vz dp))) 0
    (vz (ned_v aN G33 lat h latDot lonDot hDot latDDot lonDDot psi dd dp)).
Proof.
  intros Dg. unfold h_acc, ned_v. cbv zeta. cbn [vx vy vz]. fold rho. clearbody rho.
  auto_derive. { rewrite Z0. now exists (- G33). }
  rewrite !Z0. rewD Dg. rewrite earth_rate_ok.
  unfold cross. cbn [vx vy vz]. rewrite sin_2a. ring.
Qed.
End NedRates.

(** ** The navigation equations are Newton's law on a turning sphere *)
Lemma sphere_newton (lat lon h latD lonD hD : R -> R) (t lat2 lon2 h2 rho a1 a2 a3 g : R) :
  (forall u, is_derive lat u (latD u)) -> (forall u, is_derive lon u (lonD u)) -> (forall u, is_derive h u (hD u)) ->
  is_derive latD t lat2 -> is_derive lonD t lon2 -> is_derive hD t h2 ->
  cos (lat t) <> 0 -> rho + h t <> 0 ->
  exists vel acc,
    let pos u := vscale (rho + h u) (direction (lat u) (lon u + earth_rate * u)) in
    let W := V3 0 0 earth_rate in
    let L := lon t + earth_rate * t in
    (forall u, vec_derive pos u (vel u)) /\ vec_derive vel t acc /\
    ((lat2 = lat_acc rho a1 (latD t) (lonD t) (hD t) (lat t) (h t) /\
      lon2 = lon_acc rho a2 (latD t) (lonD t) (hD t) (lat t) (h t) /\
      h2 = h_acc rho a3 (latD t) (lonD t) (lat t) (h t) g) <->
     vsub acc (cross W (cross W (pos t))) =
     vadd (vadd (vscale a1 (north_dir (lat t) L)) (vscale a2 (east_dir L))) (vscale (a3 + g) (down_dir (lat t) L))).
Proof.
  intros D1 D2 D3 E1 E2 E3 Hc Hr.
  set (L u := lon u + earth_rate * u). set (r u := rho + h u).
  exists (fun u => V3 (hD u * (cos (lat u) * cos (L u)) + r u * (- sin (lat u) * latD u * cos (L u) - cos (lat u) * sin (L u) * (lonD u + earth_rate)))
                      (hD u * (cos (lat u) * sin (L u)) + r u * (- sin (lat u) * latD u * sin (L u) + cos (lat u) * cos (L u) * (lonD u + earth_rate)))
                      (hD u * sin (lat u) + r u * cos (lat u) * latD u)).
  set (l := lonD t + earth_rate).
  (* components of the acceleration along north, east, down *)
  set (an := r t * lat2 + 2 * hD t * latD t + r t * l * l * sin (lat t) * cos (lat t)).
  set (ae := r t * cos (lat t) * lon2 + 2 * hD t * l * cos (lat t) - 2 * r t * latD t * l * sin (lat t)).
  set (ad := - h2 + r t * latD t * latD t + r t * l * l * cos (lat t) * cos (lat t)).
  exists (vadd (vadd (vscale an (north_dir (lat t) (L t))) (vscale ae (east_dir (L t)))) (vscale ad (down_dir (lat t) (L t)))).
  cbv zeta. split; [|split].
  { intros u. unfold L, r. split; [|split]; cbn [vx vy vz vscale direction].
    all: auto_derive; [repeat split; auto; eexists; eauto|].
    all: pose proof (D1 u) as F1; pose proof (D2 u) as F2; pose proof (D3 u) as F3; try (rewD F1); try (rewD F2); try (rewD F3); ring. }
  { pose proof (sin2_cos2 (lat t)) as T. unfold Rsqr in T.
    assert (T' : sin (lat t) * sin (lat t) = 1 - cos (lat t) * cos (lat t)) by lra. clear T.
    unfold an, ae, ad, L, r, l. split; [|split]; cbn [vx vy vz vscale vadd vneg north_dir east_dir down_dir direction].
    all: auto_derive; [repeat split; auto; eexists; eauto|].
    all: pose proof (D1 t) as F1; pose proof (D2 t) as F2; pose proof (D3 t) as F3; try (rewD F1); try (rewD F2); try (rewD F3);
      try (rewD E1); try (rewD E2); try (rewD E3); ring [T']. }
  - fold (L t). fold (r t).
    assert (T : sin (lat t) * sin (lat t) = 1 - cos (lat t) * cos (lat t)).
    { pose proof (sin2_cos2 (lat t)) as T. unfold Rsqr in T. lra. }
    assert (T2 : sin (L t) * sin (L t) = 1 - cos (L t) * cos (L t)).
    { pose proof (sin2_cos2 (L t)) as T2. unfold Rsqr in T2. lra. }
    set (w := earth_rate). 
    assert (X : vsub (vadd (vadd (vscale an (north_dir (lat t) (L t))) (vscale ae (east_dir (L t)))) (vscale ad (down_dir (lat t) (L t))))
                  (cross (V3 0 0 w) (cross (V3 0 0 w) (vscale (r t) (direction (lat t) (L t))))) =
                vadd (vadd (vscale (an - r t * w * w * sin (lat t) * cos (lat t)) (north_dir (lat t) (L t))) (vscale ae (east_dir (L t))))
                     (vscale (ad - r t * w * w * cos (lat t) * cos (lat t)) (down_dir (lat t) (L t)))).
    { unfold vsub, vadd, vscale, cross, north_dir, east_dir, down_dir, vneg, direction. cbn [vx vy vz].
      apply v3_eq; ring [T]. }
    rewrite X. clear X.
    assert (U : forall x y z x' y' z', vadd (vadd (vscale x (north_dir (lat t) (L t))) (vscale y (east_dir (L t)))) (vscale z (down_dir (lat t) (L t)))
       = vadd (vadd (vscale x' (north_dir (lat t) (L t))) (vscale y' (east_dir (L t)))) (vscale z' (down_dir (lat t) (L t)))
       <-> x = x' /\ y = y' /\ z = z').
    { intros x y z x' y' z'. split; [|now intros (-> & -> & ->)].
      unfold vadd, vscale, north_dir, east_dir, down_dir, vneg, direction. cbn [vx vy vz]. intros Q. injection Q as Q1 Q2 Q3.
      set (s := sin (lat t)) in *. set (c := cos (lat t)) in *. set (S := sin (L t)) in *. set (C := cos (L t)) in *.
      assert (Y1 : (y - y') * (C * C + S * S) = 0).
      { replace ((y - y') * (C * C + S * S)) with
          (C * (x * (- s * S) + y * C + z * - (c * S)) - S * (x * (- s * C) + y * - S + z * - (c * C))
           - (C * (x' * (- s * S) + y' * C + z' * - (c * S)) - S * (x' * (- s * C) + y' * - S + z' * - (c * C)))) by ring.
        rewrite Q1, Q2. ring. }
      rewrite T2 in Y1. assert (y = y') by lra. subst y'.
      assert (Y2 : (x - x') * s + (z - z') * c = 0).
      { assert (((x - x') * s + (z - z') * c) * (C * C + S * S) = 0); [|rewrite T2 in *; lra].
        transitivity (- (C * (x * (- s * C) + y * - S + z * - (c * C)) + S * (x * (- s * S) + y * C + z * - (c * S)))
           + (C * (x' * (- s * C) + y * - S + z' * - (c * C)) + S * (x' * (- s * S) + y * C + z' * - (c * S)))); [ring|].
        rewrite Q1, Q2. ring. }
      assert (Y3 : (x - x') * c - (z - z') * s = 0) by lra.
      assert (Y4 : (x - x') * (s * s + c * c) = 0) by (transitivity (s * ((x - x') * s + (z - z') * c) + c * ((x - x') * c - (z - z') * s)); [ring|rewrite Y2, Y3; ring]).
      assert (Y5 : (z - z') * (s * s + c * c) = 0) by (transitivity (c * ((x - x') * s + (z - z') * c) - s * ((x - x') * c - (z - z') * s)); [ring|rewrite Y2, Y3; ring]).
      rewrite T in Y4, Y5. repeat split; lra. }
    rewrite U. clear U. unfold lat_acc, lon_acc, h_acc, an, ae, ad, l, tan. fold w. fold (r t).
    assert (Hr' : r t <> 0) by exact Hr. clearbody r L. clear - Hc Hr' T.
    set (s := sin (lat t)) in *. set (c := cos (lat t)) in *. 
    split; intros (Q1 & Q2 & Q3).
    + rewrite Q1, Q2, Q3. repeat split; field; auto.
    + repeat split.
      * apply (Rmult_eq_reg_l (r t)); auto. rewrite <- Q1. field. auto.
      * apply (Rmult_eq_reg_l (r t * c)); [|now apply Rmult_integral_contrapositive]. rewrite <- Q2. field. auto.
      * replace a3 with (- h2 + r t * latD t * latD t + r t * (lonD t + w) * (lonD t + w) * c * c - r t * w * w * c * c - g) by lra. eqR. ring.
Qed.

(** ** Final forms *)
Lemma ned_inv aN GN RS lla ld ldd F0 G0 F G : nedErrorDynamics aN GN RS lla ld ldd F0 G0 = Ret (true, (F, G)) ->
  size9 F0 /\ size9 G0 /\ ned_regular (vx lla) (vz lla).
Proof.
  intros E. rewrite <- !is9_inv. destruct (is9x9 F0) eqn:HF; [|unfold nedErrorDynamics in E; rewrite HF in E; discriminate].
  destruct (is9x9 G0) eqn:HG; [|unfold nedErrorDynamics in E; rewrite HF, HG in E; discriminate].
  split; [reflexivity|split; [reflexivity|]]. apply Classical_Prop.NNPP. intros N. rewrite ned_nonfinite in E by (auto; now apply is9_inv). discriminate.
Qed.

Lemma ned_defined aN GN RS lla ld ldd F0 G0 : size9 F0 -> size9 G0 ->
  ((exists F G, nedErrorDynamics aN GN RS lla ld ldd F0 G0 = Ret (true, (F, G))) <-> ned_regular (vx lla) (vz lla)) /\
  (~ ned_regular (vx lla) (vz lla) <-> nedErrorDynamics aN GN RS lla ld ldd F0 G0 = NonFinite).
Proof.
  intros HF HG. split; split.
  - intros (F & G & E). eapply ned_inv; eauto.
  - intros H. destruct (ned_ok aN GN RS lla ld ldd F0 G0 HF HG H) as (F & G & E & _). eauto.
  - intros H. now apply ned_nonfinite.
  - intros E H. destruct (ned_ok aN GN RS lla ld ldd F0 G0 HF HG H) as (F & G & E' & _). rewrite E in E'. discriminate.
Qed.

Lemma ned_regular_surface lat h : Rabs lat < PI/2 -> -6300000 < h -> ned_regular lat h.
Proof.
  intros Hl Hh. apply Rabs_def2 in Hl. assert (0 < cos lat) by (apply cos_gt_0; lra).
  pose proof (Mr_bounds lat). pose proof (radii_order lat ltac:(lra)).
  unfold ned_regular. rewrite radius_M_ok, radius_N_ok. repeat split; lra.
Qed.

Lemma ned_jacobian aN GN RS lla ld ldd F0 G0 F G psi dd dp :
  nedErrorDynamics aN GN RS lla ld ldd F0 G0 = Ret (true, (F, G)) ->
  let lat := vx lla in let h := vz lla in let rho := radius_G lat in
  let Dot := fun t => vadd ld (vscale t dd) in
  let Pos := fun t => vadd lla (vscale t dp) in
  let acc := fun t => vadd aN (vscale t (cross aN psi)) in
  vx ldd = lat_acc rho (vx aN) (vx ld) (vy ld) (vz ld) lat h ->
  vy ldd = lon_acc rho (vy aN) (vx ld) (vy ld) (vz ld) lat h ->
  exists u v, mx_apply F (l9 psi dd dp) = l9 u v dd /\
    (exists dw, vec_derive (fun t => w_in (vx (Dot t)) (vy (Dot t)) (vx (Pos t))) 0 dw /\
       u = vadd (vneg (cross (w_in (vx ld) (vy ld) lat) psi)) dw) /\
    is_derive (fun t => lat_acc rho (vx (acc t)) (vx (Dot t)) (vy (Dot t)) (vz (Dot t)) (vx (Pos t)) (vz (Pos t))) 0 (vx v) /\
    is_derive (fun t => lon_acc rho (vy (acc t)) (vx (Dot t)) (vy (Dot t)) (vz (Dot t)) (vx (Pos t)) (vz (Pos t))) 0
      (vy v + 2 * (vy ld + earth_rate - 1) * vx ld * tan lat / (rho + h) * vz dp) /\
    (forall g, is_derive g h (- m33 GN) ->
       is_derive (fun t => h_acc rho (vz (acc t)) (vx (Dot t)) (vy (Dot t)) (vx (Pos t)) (vz (Pos t)) (g (vz (Pos t)))) 0 (vz v)).
Proof.
  intros E lat h rho Dot Pos acc H1 H2.
  destruct (ned_inv _ _ _ _ _ _ _ _ _ _ E) as (HF & HG & Hr).
  destruct (ned_ok aN GN RS lla ld ldd F0 G0 HF HG Hr) as (F' & G' & E' & _ & A & _).
  rewrite E in E'. injection E' as <- <-. rewrite A, H1, H2. do 2 eexists. split; [reflexivity|].
  destruct Hr as (Hc & Hr & _).
  unfold Dot, Pos, acc. cbn [vadd vscale vx vy vz]. split; [|split; [|split]].
  - apply ned_u_deriv.
  - now apply (ned_v_lat aN lat h (vx ld) (vy ld) (vz ld) psi dd dp).
  - now apply (ned_v_lon aN lat h (vx ld) (vy ld) (vz ld) psi dd dp).
  - intros g Dg. now apply (ned_v_h aN lat h (vx ld) (vy ld) (vz ld) psi dd dp).
Qed.

(** A state in which the longitude row is not the derivative: 45 degrees north,
    moving north and one metre too high. *)
Lemma ned_lon_refuted : exists aN GN RS lla ld ldd F0 G0 F G psi dd dp,
  nedErrorDynamics aN GN RS lla ld ldd F0 G0 = Ret (true, (F, G)) /\
  vx ldd = lat_acc (radius_G (vx lla)) (vx aN) (vx ld) (vy ld) (vz ld) (vx lla) (vz lla) /\
  vy ldd = lon_acc (radius_G (vx lla)) (vy aN) (vx ld) (vy ld) (vz ld) (vx lla) (vz lla) /\
  ~ is_derive (fun t => lon_acc (radius_G (vx lla)) (vy aN + t * vy (cross aN psi)) (vx ld + t * vx dd) (vy ld + t * vy dd)
                 (vz ld + t * vz dd) (vx lla + t * vx dp) (vz lla + t * vz dp)) 0
      (nth 4 (mx_apply F (l9 psi dd dp)) 0).
Proof.
  set (lla := V3 (PI/4) 0 0). set (ld := V3 (1/100000) 0 0). set (rho := radius_G (PI/4)).
  set (ldd := V3 (lat_acc rho 0 (1/100000) 0 0 (PI/4) 0) (lon_acc rho 0 (1/100000) 0 0 (PI/4) 0) 0).
  set (dp := V3 0 0 1).
  assert (Hreg : ned_regular (vx lla) (vz lla)).
  { apply ned_regular_surface; cbn; [|lra]. pose proof PI_RGT_0. rewrite Rabs_pos_eq; lra. }
  destruct (ned_ok v3zero m3id m3id lla ld ldd (mx_zero 9 9) (mx_zero 9 9) (conj eq_refl eq_refl) (conj eq_refl eq_refl) Hreg) as (F & G & E & _ & A & _).
  exists v3zero, m3id, m3id, lla, ld, ldd, (mx_zero 9 9), (mx_zero 9 9), F, G, v3zero, v3zero, dp.
  split; [exact E|]. split; [reflexivity|]. split; [reflexivity|].
  intros D. destruct Hreg as (Hc & Hr & _).
  pose proof (ned_v_lon v3zero (vx lla) (vz lla) (vx ld) (vy ld) (vz ld) v3zero v3zero dp Hc Hr (m33 m3id) (vx ldd)) as D'.
  apply is_derive_unique in D. apply is_derive_unique in D'. rewrite D in D'. clear D.
  rewrite A in D'. cbn [nth l9] in D'.
  change (vy ldd) with (lon_acc (radius_G (vx lla)) (vy v3zero) (vx ld) (vy ld) (vz ld) (vx lla) (vz lla)) in D'.
  set (y := vy (ned_v _ _ _ _ _ _ _ _ _ _ _ _)) in D'.
  assert (Z : 2 * (vy ld + earth_rate - 1) * vx ld * tan (vx lla) / (radius_G (vx lla) + vz lla) * vz dp = 0) by lra.
  cbn [vx vy vz lla ld dp] in Z. rewrite tan_PI4 in Z. pose proof (radius_G_pos (PI/4)) as P.
  assert (Y : 2 * (0 + earth_rate - 1) * (1/100000) * 1 / (radius_G (PI/4) + 0) * 1 = 
              (2 * (0 + earth_rate - 1) / 100000) * / radius_G (PI/4)) by (field; lra).
  rewrite Y in Z. apply Rmult_integral in Z. destruct Z as [Z|Z].
  - unfold earth_rate in Z. lra.
  - apply Rinv_0_lt_compat in P. lra.
Qed.

Lemma ned_forcing aN GN RS lla ld ldd F0 G0 F G dw df dg :
  nedErrorDynamics aN GN RS lla ld ldd F0 G0 = Ret (true, (F, G)) ->
  exists v, mx_apply G (l9 dw df dg) = l9 (vneg (mvmul RS dw)) v v3zero /\
    let q := vadd (mvmul RS df) dg in
    (radius_M (vx lla) + vz lla) * vx v = vx q /\
    (radius_N (vx lla) + vz lla) * cos (vx lla) * vy v = vy q /\ - vz v = vz q.
Proof.
  intros E. destruct (ned_inv _ _ _ _ _ _ _ _ _ _ E) as (HF & HG & Hr).
  destruct (ned_ok aN GN RS lla ld ldd F0 G0 HF HG Hr) as (F' & G' & E' & _ & _ & A).
  rewrite E in E'. injection E' as <- <-. rewrite A. cbv zeta. eexists. split; [reflexivity|].
  cbn [vx vy vz]. destruct Hr as (Hc & Hr & HM & HN). repeat split; [field; auto|field; auto|ring].
Qed.

Lemma ned_independent aN GN GN' RS lat lon lon' h ld ldd ldd' F0 G0 : m33 GN = m33 GN' -> vx ldd = vx ldd' -> vy ldd = vy ldd' ->
  nedErrorDynamics aN GN RS (V3 lat lon h) ld ldd F0 G0 = nedErrorDynamics aN GN' RS (V3 lat lon' h) ld ldd' F0 G0.
Proof. intros H1 H2 H3. unfold nedErrorDynamics. cbn [vx vy vz]. now rewrite H1, H2, H3. Qed.

(** An acceleration error by way of the attitude (F) and the same by way of the
    accelerometer (G). *)
Lemma ned_two_ways aN GN RS lla ld ldd F0 G0 F G psi df :
  nedErrorDynamics aN GN RS lla ld ldd F0 G0 = Ret (true, (F, G)) -> mvmul RS df = cross aN psi ->
  exists u w v v', mx_apply F (l9 psi v3zero v3zero) = l9 u v v3zero /\
    mx_apply G (l9 v3zero df v3zero) = l9 w v' v3zero /\
    (radius_G (vx lla) + vz lla) * vx v = (radius_M (vx lla) + vz lla) * vx v' /\
    (radius_G (vx lla) + vz lla) * vy v = (radius_N (vx lla) + vz lla) * vy v' /\
    vz v = vz v' /\
    (vx (cross aN psi) <> 0 -> vx v <> vx v') /\ (vy (cross aN psi) <> 0 -> vy v <> vy v').
Proof.
  intros E Hq. destruct (ned_inv _ _ _ _ _ _ _ _ _ _ E) as (HF & HG & Hr).
  destruct (ned_ok aN GN RS lla ld ldd F0 G0 HF HG Hr) as (F' & G' & E' & _ & A & B).
  rewrite E in E'. injection E' as <- <-. rewrite A, B, Hq. cbv zeta. do 4 eexists.
  split; [reflexivity|]. split; [reflexivity|].
  destruct Hr as (Hc & Hr & HM & HN). pose proof (radii_order (vx lla) Hc) as O.
  set (q := cross aN psi) in *. unfold ned_v, v3zero, vadd. fold q. cbv zeta. cbn [vx vy vz].
  rewrite ?Rmult_0_r; rewrite ?Rplus_0_r, ?Rminus_0_r; rewrite ?Rplus_0_r, ?Rminus_0_r.
  rewrite <- radius_M_ok, <- radius_N_ok in O. destruct O as [O1 O2].
  set (g := radius_G (vx lla)) in *. set (m := radius_M (vx lla)) in *. set (n := radius_N (vx lla)) in *.
  set (c := cos (vx lla)) in *. set (h := vz lla) in *. clearbody q g m n c h.
  assert (X : forall y a b, a <> 0 -> b <> 0 -> a <> b -> y <> 0 -> y / a <> y / b).
  { intros y a b Ha Hb Hab Hy Z. apply Hab. apply (f_equal (fun x => x * (a * b) / y)) in Z.
    replace (y / a * (a * b) / y) with b in Z by (field; auto).
    replace (y / b * (a * b) / y) with a in Z by (field; auto). auto. }
  split; [field; auto|]. split; [field; auto|]. split; [reflexivity|]. split; intros Hy.
  { apply X; auto; lra. }
  { apply X; auto; try (apply Rmult_integral_contrapositive; now split).
    intros Z. apply Rmult_eq_reg_r in Z; auto. lra. }
Qed.

(** Inertial and ECEF: with the Earth's turn rate as Omega, the classic terms. *)
Lemma ecef_classic w u : mvmul (snd (skewSymmetric w)) u = cross w u.
Proof. destruct w, u. unfold mvmul, cross. cbn. apply v3_eq; ring. Qed.
