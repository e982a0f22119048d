(** There and back in rounded arithmetic; the hypotheses hold for binary64. *)
From Coq Require Import Reals ZArith Lra Lia Psatz.
From Flocq Require Import Core IEEE754.Binary.
From Verif Require Import Base BaseVec SpecRot SpecEarth SpecFloat ModelGravity ModelFrames ModelDate ModelGuardFloat ModelStrapdownFloat ModelFramesFloat
  ModelGravityFloat ModelLlaFloat SpecFloatOps SpecLlaFloat ProofPi ProofVec ProofTrig ProofGuardFloat ProofFrames ProofFrames3 ProofStrapdownFloat
  ProofDate ProofRnd ProofStrapdownFloat2 ProofFramesFloat ProofGravityFloat ProofBowring ProofSurj ProofLlaFloat.
Open Scope R_scope.

Lemma trig_turn lon lon' k : (k = 0 \/ k = -1) -> Rabs (lon' - (lon + 2 * PI * k)) <= 5 / 10000000000000000 ->
  Rabs (cos lon' - cos lon) <= 5 / 10000000000000000 /\ Rabs (sin lon' - sin lon) <= 5 / 10000000000000000.
Proof.
  intros K H. assert (E : cos lon = cos (lon + 2 * PI * k) /\ sin lon = sin (lon + 2 * PI * k)).
  { destruct K as [K|K]; rewrite K; clear K.
    - now rewrite Rmult_0_r, Rplus_0_r.
    - replace (lon + 2 * PI * -1) with (lon - 2 * PI) by ring. rewrite cos_minus, sin_minus, cos_2PI, sin_2PI. split; ring. }
  destruct E as (-> & ->). pose proof (cos_lip1 lon' (lon + 2 * PI * k)). pose proof (sin_lip1 lon' (lon + 2 * PI * k)). lra.
Qed.
Lemma prod_close a a' c c' d M : Rabs (a' - a) <= 10001 / 1000000000 -> Rabs a <= M -> M <= 17500000 -> Rabs (c' - c) <= d -> Rabs c' <= 1 -> d <= 9 / 1000000000000000 ->
  Rabs (a' * c' - a * c) <= 10001 / 1000000000 + M * d.
Proof.
  intros A B M0 C D E. replace (a' * c' - a * c) with ((a' - a) * c' + a * (c' - c)) by ring. eapply Rle_trans; [apply Rabs_triang|]. rewrite !Rabs_mult.
  assert (Rabs (a' - a) * Rabs c' <= 10001 / 1000000000 * 1) by (apply Rmult_le_compat; auto using Rabs_pos).
  assert (Rabs a * Rabs (c' - c) <= M * d) by (apply Rmult_le_compat; auto using Rabs_pos). lra.
Qed.
Lemma norm_le3 v d : 0 <= d -> Rabs (vx v) <= d -> Rabs (vy v) <= d -> Rabs (vz v) <= d -> norm v <= 1733 / 1000 * d.
Proof.
  intros D A B C. unfold norm. rewrite <- (sqrt_square (1733 / 1000 * d)) by lra. apply sqrt_le_1_alt. unfold dot.
  assert (Q : forall t, Rabs t <= d -> t * t <= d * d).
  { intros t T. pose proof (Rsqr_abs t) as S. unfold Rsqr in S. rewrite S. pose proof (Rabs_pos t). nra. }
  pose proof (Q _ A). pose proof (Q _ B). pose proof (Q _ C). pose proof (Rle_0_sqr d) as S. unfold Rsqr in S. lra.
Qed.
Lemma ecef_close lat lon alt lat' lon' alt' k : Rabs (lat' - lat) <= 8 / 1000000000000000 -> Rabs (alt' - alt) <= 1 / 100000 ->
  (k = 0 \/ k = -1) -> Rabs (lon' - (lon + 2 * PI * k)) <= 5 / 10000000000000000 -> Rabs alt <= 11000000 ->
  norm (vsub (ecef lat' lon' alt') (ecef lat lon alt)) <= 19 / 1000000.
Proof.
  intros HL HH K HO HB. destruct (trig_turn _ _ _ K HO) as (C1 & S1).
  pose proof (Rle_trans _ _ _ (cos_lip1 lat' lat) HL) as C2. pose proof (Rle_trans _ _ _ (sin_lip1 lat' lat) HL) as S2.
  pose proof (Nr_lipschitz lat lat') as NL. pose proof (Nr_bounds lat) as NB. unfold gp_a in NB. pose proof e2_bounds as EB.
  pose proof (Rabs_le_inv _ _ HB) as HB'.
  assert (A1 : Rabs (Nr lat' + alt' - (Nr lat + alt)) <= 10001 / 1000000000).
  { replace (Nr lat' + alt' - (Nr lat + alt)) with ((Nr lat' - Nr lat) + (alt' - alt)) by ring. eapply Rle_trans; [apply Rabs_triang|]. lra. }
  assert (A2 : Rabs ((1 - e2) * Nr lat' + alt' - ((1 - e2) * Nr lat + alt)) <= 10001 / 1000000000).
  { replace ((1 - e2) * Nr lat' + alt' - ((1 - e2) * Nr lat + alt)) with ((1 - e2) * (Nr lat' - Nr lat) + (alt' - alt)) by ring.
    eapply Rle_trans; [apply Rabs_triang|]. rewrite Rabs_mult, (Rabs_right (1 - e2)) by lra. pose proof (Rabs_pos (Nr lat' - Nr lat)). nra. }
  assert (B1 : Rabs (Nr lat + alt) <= 17500000) by (apply Rabs_le; lra).
  assert (B2 : Rabs ((1 - e2) * Nr lat + alt) <= 17500000) by (apply Rabs_le; nra).
  assert (T : forall g, (forall t, -1 <= g t <= 1) -> Rabs (g lon' - g lon) <= 5 / 10000000000000000 ->
    Rabs (cos lat' * g lon' - cos lat * g lon) <= 85 / 10000000000000000).
  { intros g G H. replace (cos lat' * g lon' - cos lat * g lon) with ((cos lat' - cos lat) * g lon' + cos lat * (g lon' - g lon)) by ring.
    eapply Rle_trans; [apply Rabs_triang|]. rewrite !Rabs_mult.
    assert (Rabs (cos lat' - cos lat) * Rabs (g lon') <= 8 / 1000000000000000 * 1) by (apply Rmult_le_compat; auto using Rabs_pos; apply Rabs_le, G).
    assert (Rabs (cos lat) * Rabs (g lon' - g lon) <= 1 * (5 / 10000000000000000)) by (apply Rmult_le_compat; auto using Rabs_pos; apply Rabs_le, COS_bound). lra. }
  assert (TB : forall g, (forall t, -1 <= g t <= 1) -> Rabs (cos lat' * g lon') <= 1).
  { intros g G. rewrite Rabs_mult. assert (Rabs (cos lat') <= 1) by apply Rabs_le, COS_bound. assert (Rabs (g lon') <= 1) by apply Rabs_le, G.
    apply Rle_trans with (1 * 1); [|lra]. apply Rmult_le_compat; auto using Rabs_pos. }
  eapply Rle_trans; [apply (norm_le3 _ (1016 / 100000000))|lra]; [lra| | |]; unfold ecef, vsub; cbn [vx vy vz].
  - rewrite !Rmult_assoc. eapply Rle_trans; [apply (prod_close _ _ _ _ (85 / 10000000000000000) _ A1 B1); [lra|apply (T cos); [apply COS_bound|exact C1]|apply (TB cos), COS_bound|lra]|lra].
  - rewrite !Rmult_assoc. eapply Rle_trans; [apply (prod_close _ _ _ _ (85 / 10000000000000000) _ A1 B1); [lra|apply (T sin); [apply SIN_bound|exact S1]|apply (TB sin), SIN_bound|lra]|lra].
  - eapply Rle_trans; [apply (prod_close _ _ _ _ (8 / 1000000000000000) _ A2 B2); [lra|exact S2|apply Rabs_le, SIN_bound|lra]|lra].
Qed.

(** The rounded conversions in turn, next to the exact ones. *)
Lemma lla_there_and_back F pow2 pow3 at2 rE r0 lat64 lon64 alt' : float_ok F -> pow2_ok pow2 -> pow3_ok pow3 -> atan2_ok F at2 -> frnd F PI = rval M_PI64 ->
  6300000 <= norm rE <= 16100000 -> norm rE <= 60 * sqrt (vx rE * vx rE + vy rE * vy rE) -> finite64 lat64 -> finite64 lon64 ->
  ecef2Lla_f F pow2 pow3 at2 rE = Ret (true, (rval lat64, rval lon64, alt')) ->
  exists lat lon alt p p', ecef2Lla rE = Ret (true, (lat, lon, alt)) /\ lla2Ecef lat lon alt r0 = Ret (true, p) /\
    lla2Ecef_f F pow2 lat64 lon64 alt' r0 = Ret (true, p') /\ norm (vsub p' p) <= 2 / 100000.
Proof.
  intros HF HP HC HA HPI HR HT F1 F2 E.
  destruct (lla_float_close F pow2 pow3 at2 rE HF HP HC HA ltac:(lra) HT) as (lat & lon & alt & lat' & lon' & alt1 & k & E1 & E2 & D1 & D2 & D3 & K).
  rewrite E in E2. injection E2 as <- <- <-. fold (rho rE) in HT.
  pose proof (cos_lat rE ltac:(lra) HT) as (C & Q).
  assert (L1 : lat = lat_of rE /\ lon = lon_of rE /\ alt = rho rE / cos (lat_of rE) - Nr (lat_of rE)).
  { rewrite ecef2Lla_ok in E1 by lra. injection E1 as -> -> ->. auto. }
  destruct L1 as (L1 & L2 & L3). pose proof (Nr_bounds (lat_of rE)) as NB. unfold gp_a in NB.
  pose proof (p_range rE ltac:(lra) HT) as PR.
  assert (Q0 : 0 <= rho rE / cos (lat_of rE)) by (apply Rmult_le_pos; [lra|apply Rlt_le, Rinv_0_lt_compat; lra]).
  assert (HB : - 6450000 <= alt <= 9980000) by (rewrite L3; lra). pose proof (Rabs_le_inv _ _ D2) as HB2.
  assert (LB : Rabs lat <= PI / 2 - 1 / 61).
  { assert (LR : - (PI / 2) < lat < PI / 2).
    { rewrite L1. apply atan2_pos_bound. destruct (vec_range rE ltac:(lra) HT) as (V & _). lra. }
    assert (PB := PI_bounds). apply Rnot_lt_le. intros X.
    assert (S : cos lat < 1 / 61); [|rewrite L1 in S; lra].
    replace (cos lat) with (sin (PI / 2 - Rabs lat)).
    - assert (0 < PI / 2 - Rabs lat) by (unfold Rabs; destruct (Rcase_abs lat); lra). pose proof (sin_lt_x (PI / 2 - Rabs lat)). lra.
    - rewrite sin_shift. unfold Rabs. destruct (Rcase_abs lat); [apply cos_neg|reflexivity]. }
  assert (G : latLonGuard lat64 lon64 = true).
  { apply guard_finite; auto. rewrite pi2_64_val. split.
    - replace (rval lat64) with (lat + (rval lat64 - lat)) by ring. eapply Rle_trans; [apply Rabs_triang|]. pose proof PI_bounds. lra.
    - rewrite <- HPI. pose proof (lla_f_eq F HF pow2 pow3 HP HC at2 HA rE ltac:(lra) HT) as E3. cbv zeta in E3. rewrite E in E3. injection E3 as _ -> _. apply HA. }
  destruct (lla_float F pow2 lat64 lon64 alt' r0 HF HP F1 F2 G ltac:(apply Rabs_le; lra)) as (q & p' & A1 & A2 & A3 & A4 & A5).
  pose proof (guard_implies_range lat64 lon64 F1 F2 G) as (G1 & G2).
  exists lat, lon, alt, (ecef lat lon alt), p'. split; [exact E1|]. split.
  - apply lla2Ecef_ok. split; [lra|]. rewrite L2. pose proof (atan2_range (vy rE) (vx rE)) as AR. unfold lon_of. apply Rabs_le. lra.
  - split; [exact A2|]. rewrite lla2Ecef_ok in A1 by (split; lra). injection A1 as <-.
    assert (K' : k = 0 \/ k = -1) by (destruct K as [K|(K & _)]; auto).
    pose proof (ecef_close lat lon alt _ _ _ k D1 D2 K' D3 ltac:(apply Rabs_le; lra)) as N1.
    assert (N2 : norm (vsub p' (ecef (rval lat64) (rval lon64) alt')) <= 1733 / 1000 * (1 / 10000000)).
    { apply norm_le3; unfold vsub; cbn [vx vy vz]; [lra|exact A3|exact A4|exact A5]. }
    replace (vsub p' (ecef lat lon alt)) with (vadd (vsub p' (ecef (rval lat64) (rval lon64) alt')) (vsub (ecef (rval lat64) (rval lon64) alt') (ecef lat lon alt))).
    + eapply Rle_trans; [apply norm_tri|]. lra.
    + unfold vadd, vsub. destruct p' as [a1 a2 a3]. cbn [vx vy vz]. f_equal; ring.
Qed.
(** Near the surface: back at the point within 2.1 millimetres. *)
Lemma lla_round_trip F pow2 pow3 at2 rE r0 lat64 lon64 alt' : float_ok F -> pow2_ok pow2 -> pow3_ok pow3 -> atan2_ok F at2 -> frnd F PI = rval M_PI64 ->
  6300000 <= norm rE <= 6450000 -> norm rE <= 60 * sqrt (vx rE * vx rE + vy rE * vy rE) -> finite64 lat64 -> finite64 lon64 ->
  ecef2Lla_f F pow2 pow3 at2 rE = Ret (true, (rval lat64, rval lon64, alt')) ->
  exists p', lla2Ecef_f F pow2 lat64 lon64 alt' r0 = Ret (true, p') /\ norm (vsub p' rE) <= 21 / 10000.
Proof.
  intros HF HP HC HA HPI HR HT F1 F2 E.
  destruct (lla_there_and_back F pow2 pow3 at2 rE r0 lat64 lon64 alt' HF HP HC HA HPI ltac:(lra) HT F1 F2 E) as (lat & lon & alt & p & p' & A1 & A2 & A3 & A4).
  assert (PP : 0 < vx rE * vx rE + vy rE * vy rE).
  { apply Rnot_le_lt. intros X. rewrite (sqrt_neg_0 _ X) in HT. lra. }
  destruct (ecef_round_trip rE r0 PP HR) as (lat1 & lon1 & alt1 & p1 & B1 & _ & _ & B2 & B3). rewrite A1 in B1. injection B1 as -> -> ->.
  rewrite A2 in B2. injection B2 as ->. exists p'. split; [exact A3|].
  replace (vsub p' rE) with (vadd (vsub p' p1) (vsub p1 rE)).
  - eapply Rle_trans; [apply norm_tri|]. lra.
  - unfold vadd, vsub. destruct p' as [a1 a2 a3]. cbn [vx vy vz]. f_equal; ring.
Qed.

Lemma pow3_64_ok : pow3_ok pow3_64.
Proof. intros x. unfold pow3_64. eapply Rle_trans; [apply rnd64_model|]. pose proof u64_bounds. pose proof (Rabs_pos (x * x * x)). nra. Qed.
Lemma rnd_pi : rnd64 PI = rval M_PI64.
Proof.
  rewrite pi64_val. replace (7074237752028440 / 2251799813685248) with (IZR 7074237752028440 * bpow radix2 (-51)) by (change (bpow radix2 (-51)) with (/ 2251799813685248); field).
  apply rnd64_is; [lia|lia|]. change (bpow radix2 (-51)) with (/ 2251799813685248). change (bpow radix2 (-51 - 1)) with (/ 4503599627370496).
  pose proof PI_bounds. apply Rabs_def1; lra.
Qed.
Lemma atan2_64_ok : atan2_ok binary64_ops atan2_64.
Proof.
  assert (B : forall y x, Rabs (atan2 y x) <= PI) by (intros; pose proof (atan2_range y x); apply Rabs_le; lra).
  assert (E : forall t, Rabs t <= PI -> Rabs (rnd64 t - t) <= 4 * u64).
  { intros t T. eapply Rle_trans; [apply rnd64_model|]. pose proof u64_bounds. pose proof eta_u. pose proof PI_bounds.
    assert (u64 * Rabs t <= u64 * (32 / 10)) by (apply Rmult_le_compat_l; lra). lra. }
  split; [|split].
  - intros y x _. unfold atan2_64. apply E, B.
  - intros x X. unfold atan2_64. replace (atan2 0 x) with PI.
    + pose proof PI_bounds. pose proof u64_bounds. pose proof (E PI ltac:(rewrite Rabs_right; lra)) as P. pose proof (Rabs_le_inv _ _ P). rewrite (Rabs_right (rnd64 PI)) by lra. exact P.
    + unfold atan2. destruct (Rlt_dec 0 x); [lra|]. destruct (Rlt_dec x 0); [|lra]. destruct (Rlt_dec 0 0); [lra|]. replace (0 / x) with 0 by (field; lra). rewrite atan_0. ring.
  - intros y x. unfold atan2_64. cbn [frnd binary64_ops]. pose proof (Rabs_le_inv _ _ (B y x)) as (B1 & B2). apply Rabs_le. split.
    + replace (- rnd64 PI) with (rnd64 (- PI)) by (unfold rnd64; apply round_NE_opp). now apply rnd64_le.
    + now apply rnd64_le.
Qed.
Lemma lla_exact rE : ecef2Lla_f exact_ops (fun x => x * x) (fun x => x * x * x) atan2 rE = ecef2Lla rE.
Proof.
  unfold ecef2Lla_f, ecef2Lla, ecef2Lla_with. cbv zeta. cbn [frnd fsin fcos exact_ops].
  replace (gp_f_f exact_ops) with gp_f by reflexivity. replace (gp_b_f exact_ops) with gp_b by reflexivity. unfold gp_a_f. fold gp_a.
  rewrite (Rdivc_ok (gp_a * gp_a - gp_b * gp_b)) by (unfold gp_b; lra). reflexivity.
Qed.
