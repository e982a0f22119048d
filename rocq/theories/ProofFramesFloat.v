(** Error analysis of lla2Ecef. *)
From Coq Require Import Reals ZArith Lra Lia Psatz.
From Flocq Require Import Core IEEE754.Binary IEEE754.Bits.
From Verif Require Import Base BaseVec SpecRot SpecEarth SpecFloat ModelGravity ModelFrames ModelGuardFloat ModelDate ModelStrapdownFloat
  ModelFramesFloat SpecFloatOps ProofVec ProofAttitude ProofFrames ProofFrames2 ProofStrapdown2 ProofGuardFloat ProofStrapdownFloat ProofStrapdownFloat2.
Open Scope R_scope.
Notation u := u64.

Section Float.
Variable F : FloatOps.
Hypothesis HF : float_ok F.
Variable pow2 : R -> R.
Hypothesis HP : pow2_ok pow2.

Lemma rnd2 a b k M : Rabs (a - b) <= k * u -> Rabs b <= M -> 0 <= k <= 1000000000000 -> Rabs (frnd F a - b) <= (k + M + 1) * u.
Proof.
  intros H1 H2 Hk. pose proof u64_bounds as U. pose proof eta_u. pose proof eta_pos.
  pose proof (abs_near _ _ _ _ H1 H2) as H3. pose proof (rnd_le F HF a) as H4. pose proof (abs_tri _ _ _ _ _ H4 H1) as T.
  eapply Rle_trans; [exact T|]. assert (k * u <= 1 / 1000) by nra.
  assert (u * Rabs a <= u * (M + 1 / 1000)) by (apply Rmult_le_compat_l; lra). lra.
Qed.
Lemma prod2 p p0 q q0 k j M N : Rabs (p - p0) <= k * u -> Rabs (q - q0) <= j * u -> Rabs p0 <= M -> Rabs q <= N ->
  Rabs (p * q - p0 * q0) <= (k * N + M * j) * u.
Proof. intros. replace ((k * N + M * j) * u) with (k * u * N + M * (j * u)) by ring. now apply abs_prod. Qed.
Lemma pow2_2 x x0 k M : Rabs (x - x0) <= k * u -> Rabs x0 <= M -> 0 <= k <= 1000 -> M <= 1 ->
  Rabs (pow2 x - x0 * x0) <= (k * (2 * M + 1 / 100) + 3 * (M * M) + 1 / 100) * u.
Proof.
  intros H1 H2 Hk HM. pose proof u64_bounds as U. pose proof eta_u as EU. pose proof eta_pos as EP.
  assert (KU : k * u <= 1 / 1000000000) by nra. pose proof (Rabs_pos x0) as X0P.
  pose proof (abs_near _ _ _ _ H1 H2) as H3.
  pose proof (prod2 _ _ _ _ _ _ _ _ H1 H1 H2 H3) as P. pose proof (HP x) as Q. pose proof (abs_tri _ _ _ _ _ Q P) as T.
  eapply Rle_trans; [exact T|].
  assert (X2 : x * x <= (M + k * u) * (M + k * u)).
  { pose proof (Rsqr_abs x) as E. unfold Rsqr in E. rewrite E. pose proof (Rabs_pos x). apply Rmult_le_compat; lra. }
  assert (M0 : 0 <= M) by lra. assert (D0 : 0 <= k * u) by nra.
  set (dl := k * u) in *.
  assert (X3 : x * x <= M * M + 1 / 1000) by nra.
  assert (Y1 : 2 * u * (x * x) <= 2 * u * (M * M + 1 / 1000)) by (apply Rmult_le_compat_l; lra).
  assert (Y2 : (k * (M + dl) + M * k) * u = dl * (2 * M + dl)) by (unfold dl; ring).
  assert (Y3 : dl * (2 * M + dl) <= dl * (2 * M + 1 / 100)) by (apply Rmult_le_compat_l; lra).
  replace ((k * (2 * M + 1 / 100) + 3 * (M * M) + 1 / 100) * u) with (dl * (2 * M + 1 / 100) + 3 * (u * (M * M)) + 1 / 100 * u) by (unfold dl; ring).
  assert (Y4 : 0 <= u * (M * M)) by (apply Rmult_le_pos; nra). lra.
Qed.
Lemma sqrt2 q q0 k m : Rabs (q - q0) <= k * u -> 0 < m -> m * m <= q0 -> 0 <= q -> 0 <= k -> Rabs (sqrt q - sqrt q0) <= k / m * u.
Proof.
  intros H M0 M1 Hq Hk. assert (Q0 : 0 < q0) by nra.
  pose proof (sqrt_pos q) as S1. assert (S2 : m <= sqrt q0). { rewrite <- (sqrt_square m) by lra. apply sqrt_le_1_alt. lra. }
  replace (q - q0) with ((sqrt q - sqrt q0) * (sqrt q + sqrt q0)) in H.
  - rewrite Rabs_mult, (Rabs_right (sqrt q + sqrt q0)) in H by lra. pose proof (Rabs_pos (sqrt q - sqrt q0)).
    apply Rmult_le_reg_r with m; [lra|]. replace (k / m * u * m) with (k * u) by (field; lra). nra.
  - pose proof (sqrt_sqrt q Hq) as E1. pose proof (sqrt_sqrt q0 ltac:(lra)) as E2. rewrite <- E1 at 3. rewrite <- E2 at 3. ring.
Qed.
Ltac wk := eapply Rle_trans; [eassumption|pose proof u64_bounds; nra].

Lemma f_err : Rabs (gp_f_f F - gp_f) <= 1 * u.
Proof.
  unfold gp_f_f, gp_f. pose proof u64_bounds as U. pose proof eta_u as E. pose proof eta_pos as E0.
  set (c := 298257222101 / 1000000000). assert (C : 298 < c < 299) by (unfold c; lra).
  pose proof (rnd_le F HF c) as H. rewrite (Rabs_right c) in H by lra. set (ch := frnd F c) in *. clearbody ch c.
  assert (H' : Rabs (ch - c) <= 300 * u) by nra. pose proof H' as H''. apply Rabs_le_inv in H''.
  assert (CH : 297 < ch < 300) by nra.
  assert (I : Rabs (1 / ch - 1 / c) <= 1 / 100 * u).
  { replace (1 / ch - 1 / c) with ((c - ch) * / (ch * c)) by (field; lra). rewrite Rabs_mult, Rabs_minus_sym.
    assert (P : 297 * 298 <= ch * c) by nra. rewrite (Rabs_right (/ (ch * c))) by (apply Rle_ge, Rlt_le, Rinv_0_lt_compat; lra).
    assert (/ (ch * c) <= / (297 * 298)) by (apply Rinv_le; lra).
    apply Rle_trans with (300 * u * / (297 * 298)); [apply Rmult_le_compat; try apply Rabs_pos; try lra|lra].
    apply Rlt_le, Rinv_0_lt_compat. lra. }
  assert (B : Rabs (1 / c) <= 1 / 100).
  { unfold Rdiv. rewrite Rmult_1_l, Rabs_right by (apply Rle_ge, Rlt_le, Rinv_0_lt_compat; lra).
    assert (/ c <= / 298) by (apply Rinv_le; lra). lra. }
  pose proof (rnd_le F HF (1 / ch)) as K. pose proof (abs_near _ _ _ _ I B) as A. pose proof (abs_tri _ _ _ _ _ K I) as T.
  eapply Rle_trans; [exact T|]. assert (u * Rabs (1 / ch) <= u * (1 / 10)) by (apply Rmult_le_compat_l; lra). lra.
Qed.

Lemma le_u k j x : x <= k * u -> k <= j -> x <= j * u.
Proof. intros. pose proof u64_bounds. nra. Qed.
Let r := frnd F.
Let q1 := r (1 - pow2 (r (1 - gp_f_f F))).
Lemma q1_err : Rabs (q1 - e2) <= 11 * u.
Proof.
  assert (T : Rabs (r (1 - gp_f_f F) - (1 - gp_f)) <= (1 + 1 + 1) * u).
  { apply rnd2; auto; [|unfold gp_f; apply Rabs_le; lra|lra].
    replace (1 - gp_f_f F - (1 - gp_f)) with (- (gp_f_f F - gp_f)) by ring. rewrite Rabs_Ropp. apply f_err; auto. }
  assert (P := pow2_2 _ _ _ 1 T ltac:(unfold gp_f; apply Rabs_le; lra) ltac:(lra) ltac:(lra)).
  eapply le_u; [unfold q1; eapply (rnd2 _ e2 _ (1 / 100))|].
  - unfold e2. match goal with |- Rabs (1 - ?a - (1 - ?b)) <= _ => replace (1 - a - (1 - b)) with (- (a - b)) by ring end.
    rewrite Rabs_Ropp. exact P.
  - pose proof e2_bounds. apply Rabs_le. lra.
  - lra.
  - lra.
Qed.
Lemma q1_pos : 0 <= q1.
Proof. pose proof q1_err as H. apply Rabs_le_inv in H. pose proof u64_bounds. pose proof e2_bounds. lra. Qed.
Lemma se2 : 8 / 100 <= sqrt e2 <= 82 / 1000.
Proof.
  pose proof e2_bounds. split.
  - rewrite <- (sqrt_square (8 / 100)) by lra. apply sqrt_le_1_alt. lra.
  - rewrite <- (sqrt_square (82 / 1000)) by lra. apply sqrt_le_1_alt. lra.
Qed.
Let e := r (sqrt q1).
Lemma e_err : Rabs (e - sqrt e2) <= 139 * u.
Proof.
  pose proof se2. pose proof e2_bounds. eapply le_u; [unfold e; eapply (rnd2 _ _ _ (82 / 1000))|].
  - apply (sqrt2 _ _ 11 (8 / 100)); try lra; [apply q1_err|apply q1_pos].
  - apply Rabs_le. lra.
  - lra.
  - lra.
Qed.
Lemma pe_err : Rabs (pow2 e - e2) <= 25 * u.
Proof.
  rewrite <- e_sqrt at 1. eapply le_u; [apply (pow2_2 _ _ 139 (82 / 1000)); try lra; [apply e_err|]|lra].
  pose proof se2. apply Rabs_le. lra.
Qed.
Variable lat : R.
Lemma ps_err : Rabs (pow2 (fsin F lat) - sin lat * sin lat) <= 8 * u.
Proof.
  eapply le_u; [apply (pow2_2 _ _ 2 1); try lra; [apply HF|apply Rabs_le, SIN_bound]|lra].
Qed.
Lemma sin_sq : 0 <= sin lat * sin lat <= 1.
Proof. pose proof (SIN_bound lat). nra. Qed.
Let w := r (1 - r (pow2 e * pow2 (fsin F lat))).
Lemma w_err : Rabs (w - W2 lat) <= 31 * u.
Proof.
  pose proof u64_bounds as U. pose proof sin_sq as S. pose proof e2_bounds as E. pose proof ps_err as P.
  assert (B : Rabs (pow2 (fsin F lat)) <= 11 / 10).
  { assert (Q := abs_near _ _ _ 1 P ltac:(apply Rabs_le; lra)). lra. }
  assert (X := prod2 _ _ _ _ _ _ (67 / 10000) _ pe_err P ltac:(apply Rabs_le; lra) B).
  assert (Y : Rabs (r (pow2 e * pow2 (fsin F lat)) - e2 * (sin lat * sin lat)) <= 29 * u).
  { eapply le_u; [eapply (rnd2 _ _ _ (67 / 10000) X)|]; [apply Rabs_le; nra|lra|lra]. }
  eapply le_u; [unfold w; eapply (rnd2 _ _ 29 1)|]; try lra.
  - unfold W2. match goal with |- Rabs (1 - ?a - (1 - ?b)) <= _ => replace (1 - a - (1 - b)) with (- (a - b)) by ring end.
    now rewrite Rabs_Ropp.
  - unfold W2. apply Rabs_le. nra.
Qed.
Lemma W2_range : 99 / 100 <= W2 lat <= 1.
Proof. unfold W2. pose proof sin_sq. pose proof e2_bounds. nra. Qed.
Lemma w_pos : 0 <= w.
Proof. pose proof w_err as H. apply Rabs_le_inv in H. pose proof u64_bounds. pose proof W2_range. lra. Qed.
Lemma sW_range : 99 / 100 <= sqrt (W2 lat) <= 1.
Proof.
  pose proof W2_range. split.
  - rewrite <- (sqrt_square (99 / 100)) by lra. apply sqrt_le_1_alt. lra.
  - rewrite <- sqrt_1. apply sqrt_le_1_alt. lra.
Qed.
Let s := r (sqrt w).
Lemma s_err : Rabs (s - sqrt (W2 lat)) <= 34 * u.
Proof.
  pose proof sW_range. pose proof W2_range. eapply le_u; [unfold s; eapply (rnd2 _ _ _ 1)|].
  - apply (sqrt2 _ _ 31 (99 / 100)); try lra; [apply w_err|apply w_pos].
  - apply Rabs_le. lra.
  - lra.
  - lra.
Qed.
Lemma s_range : 98 / 100 <= s <= 2.
Proof. pose proof s_err as H. apply Rabs_le_inv in H. pose proof u64_bounds. pose proof sW_range. lra. Qed.
Let Nh := r (gp_a_f / s).
Lemma Nr_range : 6378137 <= Nr lat <= 6450000.
Proof.
  unfold Nr, gp_a. pose proof sW_range. assert (1 <= / sqrt (W2 lat) <= / (99 / 100)).
  { split; [rewrite <- Rinv_1; apply Rinv_le; lra|apply Rinv_le; lra]. }
  unfold Rdiv. lra.
Qed.
Lemma N_err : Rabs (Nh - Nr lat) <= 231000000 * u.
Proof.
  pose proof sW_range as S1. pose proof s_range as S2. pose proof s_err as S3. pose proof u64_bounds as U.
  assert (I : Rabs (gp_a_f / s - Nr lat) <= 224000000 * u).
  { unfold Nr, gp_a_f, gp_a. replace (6378137 / s - 6378137 / sqrt (W2 lat)) with (6378137 * ((sqrt (W2 lat) - s) * / (s * sqrt (W2 lat)))) by (field; lra).
    rewrite !Rabs_mult, (Rabs_right 6378137), Rabs_minus_sym by lra.
    assert (P : 98 / 100 * (99 / 100) <= s * sqrt (W2 lat)) by nra.
    rewrite (Rabs_right (/ _)) by (apply Rle_ge, Rlt_le, Rinv_0_lt_compat; lra).
    assert (/ (s * sqrt (W2 lat)) <= / (98 / 100 * (99 / 100))) by (apply Rinv_le; lra).
    apply Rle_trans with (6378137 * (34 * u * / (98 / 100 * (99 / 100)))); [|lra].
    apply Rmult_le_compat_l; [lra|]. apply Rmult_le_compat; try apply Rabs_pos; try lra.
    apply Rlt_le, Rinv_0_lt_compat. lra. }
  pose proof Nr_range. eapply le_u; [unfold Nh; eapply (rnd2 _ _ _ 6450000 I)|]; [apply Rabs_le; lra|lra|lra].
Qed.
Variable lon alt : R.
Hypothesis Ha : Rabs alt <= 10000000.
Lemma trig_small (g g0 : R -> R) x : Rabs (g x - g0 x) <= 2 * u -> -1 <= g0 x <= 1 -> Rabs (g x) <= 11 / 10.
Proof. intros H B. pose proof u64_bounds. assert (Q := abs_near _ _ _ 1 H ltac:(apply Rabs_le; lra)). lra. Qed.
(** Multiplication by a computed sine or cosine, then rounding. *)
Lemma trig_mul p p0 k (g g0 : R -> R) x : Rabs (p - p0) <= k * u -> Rabs p0 <= 16500000 -> 0 <= k <= 600000000 ->
  Rabs (g x - g0 x) <= 2 * u -> -1 <= g0 x <= 1 ->
  Rabs (r (p * g x) - p0 * g0 x) <= (11 / 10 * k + 50000000) * u /\ Rabs (p0 * g0 x) <= 16500000.
Proof.
  intros H1 H2 Hk Hg Hb. pose proof u64_bounds as U. pose proof (trig_small g g0 x Hg Hb) as B.
  pose proof (prod2 _ _ _ _ _ _ _ _ H1 Hg H2 B) as P.
  assert (Q : Rabs (p0 * g0 x) <= 16500000).
  { rewrite Rabs_mult. assert (Rabs (g0 x) <= 1) by (apply Rabs_le; lra). pose proof (Rabs_pos p0). pose proof (Rabs_pos (g0 x)). nra. }
  split; [|exact Q]. eapply le_u; [eapply (rnd2 _ _ _ _ P Q)|]; lra.
Qed.
Lemma xy_err g g0 : Rabs (g lon - g0 lon) <= 2 * u -> -1 <= g0 lon <= 1 ->
  Rabs (r (r (r (Nh + alt) * fcos F lat) * g lon) - (Nr lat + alt) * cos lat * g0 lon) <= 420000000 * u.
Proof.
  intros Hg Hb. pose proof Nr_range as N. apply Rabs_le_inv in Ha as A.
  assert (A0 : Rabs (Nr lat + alt) <= 16500000) by (apply Rabs_le; lra).
  assert (A1 : Rabs (r (Nh + alt) - (Nr lat + alt)) <= 248000000 * u).
  { eapply le_u; [eapply (rnd2 _ _ 231000000 16500000)|]; try lra.
    replace (Nh + alt - (Nr lat + alt)) with (Nh - Nr lat) by ring. apply N_err. }
  destruct (trig_mul _ _ _ (fcos F) cos lat A1 A0 ltac:(lra) ltac:(apply HF) (COS_bound lat)) as (B1 & B2).
  destruct (trig_mul _ _ _ g g0 lon B1 B2 ltac:(lra) Hg Hb) as (C1 & _).
  eapply le_u; [exact C1|lra].
Qed.
Lemma z_err : Rabs (r (r (r (r (1 - pow2 e) * Nh) + alt) * fsin F lat) - ((1 - e2) * Nr lat + alt) * sin lat) <= 550000000 * u.
Proof.
  pose proof Nr_range as N. pose proof e2_bounds as E. apply Rabs_le_inv in Ha as A. pose proof u64_bounds as U. pose proof N_err as NE.
  assert (A1 : Rabs (r (1 - pow2 e) - (1 - e2)) <= 27 * u).
  { eapply le_u; [eapply (rnd2 _ _ 25 1)|]; try lra.
    - replace (1 - pow2 e - (1 - e2)) with (- (pow2 e - e2)) by ring. rewrite Rabs_Ropp. apply pe_err.
    - apply Rabs_le. lra. }
  assert (NB : Rabs Nh <= 6500000).
  { assert (Q := abs_near _ _ _ 6450000 NE ltac:(apply Rabs_le; lra)). lra. }
  assert (P := prod2 _ _ _ _ _ _ 1 _ A1 NE ltac:(apply Rabs_le; lra) NB).
  assert (M0 : 0 <= (1 - e2) * Nr lat <= 6450000) by nra.
  assert (P1 : Rabs (r (r (1 - pow2 e) * Nh) - (1 - e2) * Nr lat) <= 414000000 * u).
  { eapply le_u; [eapply (rnd2 _ _ _ 6450000 P)|]; [apply Rabs_le; lra|lra|lra]. }
  assert (A0 : Rabs ((1 - e2) * Nr lat + alt) <= 16500000) by (apply Rabs_le; lra).
  assert (P2 : Rabs (r (r (r (1 - pow2 e) * Nh) + alt) - ((1 - e2) * Nr lat + alt)) <= 431000000 * u).
  { eapply le_u; [eapply (rnd2 _ _ 414000000 16500000)|]; try lra.
    match goal with |- Rabs (?a + ?c - (?b + ?c)) <= _ => replace (a + c - (b + c)) with (a - b) by ring end. exact P1. }
  destruct (trig_mul _ _ _ (fsin F) sin lat P2 A0 ltac:(lra) ltac:(apply HF) (SIN_bound lat)) as (B1 & _).
  eapply le_u; [exact B1|lra].
Qed.
End Float.

Lemma lla_float F pow2 lat lon alt rE : float_ok F -> pow2_ok pow2 -> finite64 lat -> finite64 lon ->
  latLonGuard lat lon = true -> Rabs alt <= 10000000 ->
  exists p p', lla2Ecef (rval lat) (rval lon) alt rE = Ret (true, p) /\
    lla2Ecef_f F pow2 lat lon alt rE = Ret (true, p') /\
    Rabs (vx p' - vx p) <= 1 / 10000000 /\ Rabs (vy p' - vy p) <= 1 / 10000000 /\ Rabs (vz p' - vz p) <= 1 / 10000000.
Proof.
  intros HF HP H1 H2 G Ha. pose proof (guard_implies_range lat lon H1 H2 G) as (L1 & L2).
  assert (U : 600000000 * u <= 1 / 10000000) by (rewrite u64_val; lra). pose proof u64_bounds as U0.
  exists (ecef (rval lat) (rval lon) alt). eexists. split; [|split].
  - apply lla2Ecef_ok. split; lra.
  - unfold lla2Ecef_f. rewrite G. cbn [negb]. fold (rval lat). fold (rval lon). cbv zeta.
    unfold sqrtc at 1. destruct (Rlt_dec _ 0) as [X|_]; [pose proof (q1_pos F HF pow2 HP); lra|]. cbn [bind].
    unfold sqrtc at 1. destruct (Rlt_dec _ 0) as [X|_]; [pose proof (w_pos F HF pow2 HP (rval lat)); lra|]. cbn [bind].
    rewrite Rdivc_ok by (pose proof (s_range F HF pow2 HP (rval lat)); lra). cbn [bind]. reflexivity.
  - cbn [vx vy vz ecef]. split; [|split].
    + eapply Rle_trans; [apply (xy_err F HF pow2 HP (rval lat) (rval lon) alt Ha (fcos F) cos)|lra]; [apply HF|apply COS_bound].
    + eapply Rle_trans; [apply (xy_err F HF pow2 HP (rval lat) (rval lon) alt Ha (fsin F) sin)|lra]; [apply HF|apply SIN_bound].
    + eapply Rle_trans; [apply (z_err F HF pow2 HP (rval lat) alt Ha)|lra].
Qed.
Lemma lla_float_reject F pow2 lat lon alt rE : latLonGuard lat lon = false -> lla2Ecef_f F pow2 lat lon alt rE = Ret (false, rE).
Proof. intros G. unfold lla2Ecef_f. now rewrite G. Qed.
Lemma pow2_64_ok : pow2_ok pow2_64.
Proof.
  intros x. unfold pow2_64. eapply Rle_trans; [apply rnd64_model|]. pose proof u64_bounds. pose proof (Rle_0_sqr x) as S. unfold Rsqr in S.
  rewrite Rabs_right by lra. nra.
Qed.

(** ** The statement in terms of the ellipsoid *)
Lemma lla_float_ellipsoid F pow2 lat lon alt rE : float_ok F -> pow2_ok pow2 -> finite64 lat -> finite64 lon ->
  latLonGuard lat lon = true -> Rabs alt <= 10000000 ->
  exists s k p, on_ellipsoid earth_a earth_b s /\ 0 < k /\
    ellipsoid_grad earth_a earth_b s = vscale k (direction (rval lat) (rval lon)) /\
    lla2Ecef_f F pow2 lat lon alt rE = Ret (true, p) /\
    norm (vsub p (vadd s (vscale alt (direction (rval lat) (rval lon))))) <= 2 / 10000000.
Proof.
  intros HF HP H1 H2 G Ha. destruct (lla_float F pow2 lat lon alt rE HF HP H1 H2 G Ha) as (p & p' & E & E' & D).
  pose proof (guard_implies_range lat lon H1 H2 G) as (L1 & L2).
  destruct (lla2Ecef_ellipsoid (rval lat) (rval lon) alt rE ltac:(split; lra)) as (s & k & q & Eq & HS & Hk & HG & Hq).
  rewrite E in Eq. injection Eq as <-. exists s, k, p'. repeat (split; [assumption|]). rewrite <- Hq.
  assert (N := norm_small (vsub p' p) (1 / 10000000)). specialize (N ltac:(unfold small; destruct p, p'; exact D)).
  pose proof (norm_nonneg (vsub p' p)). nra.
Qed.

(** ** NED matrices *)
Lemma ned_near F (HF : float_ok F) (g g0 h h0 : R -> R) x y : Rabs (g x - g0 x) <= 2 * u -> Rabs (h y - h0 y) <= 2 * u ->
  -1 <= g0 x <= 1 -> -1 <= h0 y <= 1 -> Rabs (frnd F (- g x * h y) - - g0 x * h0 y) <= 7 * u.
Proof.
  intros H1 H2 B1 B2. pose proof (trig_small h h0 y H2 B2) as S. pose proof u64_bounds.
  assert (H1' : Rabs (- g x - - g0 x) <= 2 * u) by (replace (- g x - - g0 x) with (- (g x - g0 x)) by ring; now rewrite Rabs_Ropp).
  pose proof (prod2 _ _ _ _ _ _ 1 _ H1' H2 ltac:(apply Rabs_le; lra) S) as P.
  eapply le_u; [eapply (rnd2 F HF _ _ _ 1 P)|]; [apply Rabs_le; nra|lra|lra].
Qed.
Lemma ned_float F lat lon M0 M1 : float_ok F -> finite64 lat -> finite64 lon -> latLonGuard lat lon = true ->
  exists A B M, computeREcef2Ned_f F lat lon M0 = (true, A) /\ computeRNed2Ecef_f F lat lon M1 = (true, B) /\
    computeREcef2Ned (rval lat) (rval lon) M0 = (true, M) /\
    B = mtr A /\ close_to (21 * u64) A (mvmul M) /\ close_to (21 * u64) B (mvmul (mtr M)).
Proof.
  intros HF H1 H2 G. pose proof (guard_implies_range lat lon H1 H2 G) as (L1 & L2).
  unfold computeREcef2Ned_f, computeRNed2Ecef_f, computeREcef2Ned. rewrite G. cbn [negb]. fold (rval lat). fold (rval lon).
  destruct (Rlt_dec _ _) as [X|_]; [lra|]. destruct (Rlt_dec _ _) as [X|_]; [lra|].
  do 3 eexists. split; [reflexivity|]. split; [reflexivity|]. split; [reflexivity|]. split; [reflexivity|].
  pose proof (proj1 (proj2 (proj2 HF))) as HS. pose proof (proj2 (proj2 (proj2 HF))) as HC. pose proof u64_bounds as U.
  assert (HN : forall x, Rabs (- fsin F x - - sin x) <= 7 * u64).
  { intros x. replace (- fsin F x - - sin x) with (- (fsin F x - sin x)) by ring. rewrite Rabs_Ropp. specialize (HS x). lra. }
  assert (HC' : forall x, Rabs (fcos F x - cos x) <= 7 * u64) by (intros x; specialize (HC x); lra).
  assert (Z : Rabs (0 - 0) <= 7 * u64) by (rewrite Rminus_0_r, Rabs_R0; lra).
  replace (21 * u64) with (3 * (7 * u64)) by ring. split; apply near_op; repeat split; cbn [m11 m12 m13 m21 m22 m23 m31 m32 m33 mtr];
  first [apply HN|apply HC'|exact Z|apply (ned_near F HF); first [apply HS|apply HC|apply SIN_bound|apply COS_bound]].
Qed.
Lemma ned_float_reject F lat lon M0 : latLonGuard lat lon = false ->
  computeREcef2Ned_f F lat lon M0 = (false, M0) /\ computeRNed2Ecef_f F lat lon M0 = (false, M0).
Proof. intros G. unfold computeREcef2Ned_f, computeRNed2Ecef_f. now rewrite G. Qed.

(** Without rounding errors the computations are the exact ones. *)
Lemma frames_exact lat lon alt rE M : finite64 lat -> finite64 lon -> latLonGuard lat lon = true ->
  lla2Ecef_f exact_ops (fun x => x * x) lat lon alt rE = lla2Ecef (rval lat) (rval lon) alt rE /\
  computeREcef2Ned_f exact_ops lat lon M = computeREcef2Ned (rval lat) (rval lon) M /\
  computeRNed2Ecef_f exact_ops lat lon M = computeRNed2Ecef (rval lat) (rval lon) M.
Proof.
  intros H1 H2 G. pose proof (guard_implies_range lat lon H1 H2 G) as (L1 & L2).
  unfold lla2Ecef_f, lla2Ecef, computeREcef2Ned_f, computeREcef2Ned, computeRNed2Ecef_f, computeRNed2Ecef. rewrite G. cbn [negb].
  fold (rval lat). fold (rval lon).
  destruct (Rlt_dec (PI / 2) _) as [X|_]; [lra|]. destruct (Rlt_dec PI _) as [X|_]; [lra|]. repeat split.
Qed.

(** To NED and back. *)
Lemma ned_round_trip F lat lon M0 M1 : float_ok F -> finite64 lat -> finite64 lon -> latLonGuard lat lon = true ->
  exists A B, computeREcef2Ned_f F lat lon M0 = (true, A) /\ computeRNed2Ecef_f F lat lon M1 = (true, B) /\
    forall v, norm (vsub (mvmul B (mvmul A v)) v) <= 43 * u64 * norm v /\
              Rabs (norm (mvmul A v) - norm v) <= 21 * u64 * norm v.
Proof.
  intros HF H1 H2 G. destruct (ned_float F lat lon M0 M1 HF H1 H2 G) as (A & B & M & EA & EB & EM & ET & CA & CB).
  exists A, B. split; [exact EA|]. split; [exact EB|]. intros v. pose proof u64_bounds as U.
  pose proof (guard_implies_range lat lon H1 H2 G) as (L1 & L2).
  destruct (ned_rotations (rval lat) (rval lon) M0 M1 ltac:(split; lra)) as (M' & _ & EM' & _ & RM & _).
  rewrite EM in EM'. injection EM' as <-.
  assert (NM : forall w, norm (mvmul M w) = norm w) by (intros; now apply norm_rotated).
  assert (NT : forall w, norm (mvmul (mtr M) w) = norm w) by (intros; apply norm_rotated; now apply rotation_mtr).
  assert (V : norm (vsub (mvmul A v) (mvmul M v)) <= 21 * u64 * norm v) by apply CA.
  assert (N : Rabs (norm (mvmul A v) - norm v) <= 21 * u64 * norm v).
  { rewrite <- (NM v) at 1. pose proof (norm_tri (mvmul M v) (vsub (mvmul A v) (mvmul M v))) as T1.
    pose proof (norm_tri (mvmul A v) (vsub (mvmul M v) (mvmul A v))) as T2.
    replace (norm (vsub (mvmul M v) (mvmul A v))) with (norm (vsub (mvmul A v) (mvmul M v))) in T2
      by (unfold norm; f_equal; destruct (mvmul A v), (mvmul M v); unfold dot, vsub; cbn; ring).
    replace (vadd (mvmul M v) (vsub (mvmul A v) (mvmul M v))) with (mvmul A v) in T1
      by (destruct (mvmul A v), (mvmul M v); unfold vadd, vsub; cbn; f_equal; ring).
    replace (vadd (mvmul A v) (vsub (mvmul M v) (mvmul A v))) with (mvmul M v) in T2
      by (destruct (mvmul A v), (mvmul M v); unfold vadd, vsub; cbn; f_equal; ring).
    rewrite !NM in *. apply Rabs_le. lra. }
  split; [|exact N]. apply Rabs_le_inv in N. pose proof (norm_nonneg v).
  replace (vsub (mvmul B (mvmul A v)) v) with
    (vadd (vsub (mvmul B (mvmul A v)) (mvmul (mtr M) (mvmul A v))) (mvmul (mtr M) (vsub (mvmul A v) (mvmul M v)))).
  - eapply Rle_trans; [apply norm_tri|]. rewrite NT. pose proof (CB (mvmul A v)).
    assert (21 * u64 * norm (mvmul A v) <= 22 * u64 * norm v) by nra. lra.
  - assert (I : mvmul (mtr M) (mvmul M v) = v).
    { rewrite <- mvmul_mmul. rewrite (proj2 (rot_tr M RM)). destruct v; unfold mvmul, m3id, dot; cbn; f_equal; ring. }
    set (w := mvmul A v). set (z := mvmul B w). rewrite <- I at 2. set (y := mvmul M v). clearbody w z y.
    destruct z, w, y, M; unfold vadd, vsub, mvmul, mtr, dot; cbn; f_equal; ring.
Qed.
