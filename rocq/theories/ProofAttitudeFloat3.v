(** Quarter turns and half turns in double arithmetic. *)
From Coq Require Import Reals ZArith List Bool Lra Lia Psatz.
From Flocq Require Import Core.
From Verif Require Import Base BaseVec SpecRot ModelAttitude ModelDate ModelGuardFloat SpecFloat ModelStrapdownFloat ModelFramesFloat ModelAttitudeFloat SpecFloatOps
  ProofVec ProofAttitude ProofPi ProofDate ProofGuardFloat ProofStrapdownFloat ProofStrapdownFloat2 ProofFramesFloat ProofGravityFloat ProofRnd.
Import ListNotations.
Open Scope R_scope.

Lemma rnd64_1 : rnd64 1 = 1. Proof. apply (rnd64_int 1). lia. Qed.
Lemma rnd64_2 : rnd64 2 = 2. Proof. apply (rnd64_int 2). lia. Qed.
Lemma rnd64_idem x : rnd64 (rnd64 x) = rnd64 x.
Proof. apply round_generic; [apply valid_rnd_N|]. apply generic_format_round; [apply FLT_exp_valid; reflexivity|apply valid_rnd_N]. Qed.
Lemma near2 x : Rabs (x - 2) < bpow radix2 (-53) -> rnd64 x = 2.
Proof.
  intros H. rewrite (rnd64_is (2 ^ 53) (-52)); [rewrite (IZR_Zpower radix2), <- bpow_plus by lia; reflexivity|lia|lia|].
  rewrite (IZR_Zpower radix2), <- bpow_plus by lia. exact H.
Qed.
Lemma near1 x : Rabs (x - 1) < bpow radix2 (-54) -> rnd64 x = 1.
Proof.
  intros H. rewrite (rnd64_is (2 ^ 53) (-53)); [rewrite (IZR_Zpower radix2), <- bpow_plus by lia; reflexivity|lia|lia|].
  rewrite (IZR_Zpower radix2), <- bpow_plus by lia. exact H.
Qed.
(** A matrix with diagonal 1, c, c and c tiny: the two largest squares tie. *)
Lemma tie_lost A c pow2 : m11 A = 1 -> m22 A = rnd64 c -> m33 A = rnd64 c -> Rabs (rnd64 c) < bpow radix2 (-53) ->
  quat_of_dcm_f binary64_ops pow2 A = NonFinite.
Proof.
  intros H1 H2 H3 C. unfold quat_of_dcm_f. cbv beta zeta. cbn [binary64_ops frnd]. rewrite H1, H2, H3. set (k := rnd64 c) in *.
  assert (K : rnd64 k = k) by apply rnd64_idem. apply Rabs_def2 in C.
  replace (1 + 1) with 2 by ring. rewrite Rminus_eq_0, rnd64_2, rnd64_0, Rplus_0_l, Rminus_0_l, rnd64_opp, K.
  rewrite (near2 (2 + k)), (near2 (2 + k)), (near2 (2 - k)), (near2 (2 - k)) by (apply Rabs_def1; lra).
  replace (k - k) with 0 by ring. replace (- k + k) with 0 by ring. rewrite !rnd64_0, Rmult_0_r, rnd64_0.
  unfold Rltb'. destruct (Rlt_dec _ _) as [L|_]; [lra|]. cbn [andb].
  assert (P : 0 < rnd64 (0.25 * 2)).
  { replace (0.25 * 2) with (1 * bpow radix2 (-1)) by (cbn; lra). rewrite (rnd64_exact 1 (-1)) by lia. cbn. lra. }
  destruct (Rlt_dec (rnd64 (0.25 * 2)) 0) as [L|_]; [lra|]. cbn [andb].
  unfold sqrtc. destruct (Rlt_dec 0 0) as [L|_]; [lra|]. cbn [bind]. rewrite sqrt_0, rnd64_0, Rmult_0_r, rnd64_0, Rdivc_0. reflexivity.
Qed.
Lemma cos_pi2_64 : 0 < cos (rval M_PI_2_64) < / 10000000000000000.
Proof.
  pose proof PI_bounds as P. set (x := rval M_PI_2_64). assert (X := pi2_64_val). fold x in X.
  replace (cos x) with (sin (PI / 2 - x)) by (rewrite sin_shift; reflexivity). set (y := PI / 2 - x). assert (Y : 0 < y < / 10000000000000000) by (unfold y; lra).
  split; [apply sin_gt_0; lra|]. apply Rlt_trans with y; [apply sin_lt_x; lra|lra].
Qed.
Lemma sin_pi2_64 : rnd64 (sin (rval M_PI_2_64)) = 1.
Proof.
  pose proof PI_bounds as P. set (x := rval M_PI_2_64). assert (X := pi2_64_val). fold x in X.
  replace (sin x) with (cos (PI / 2 - x)) by apply cos_shift. set (y := PI / 2 - x). assert (Y : 0 < y < / 10000000000000000) by (unfold y; lra).
  apply near1. rewrite Rabs_left1 by (pose proof (COS_bound y); lra).
  assert (C : 1 - y * y / 2 <= cos y). { pose proof (cos_bound y 0 ltac:(lra) ltac:(lra)) as (B & _). unfold cos_approx, sum_f_R0, cos_term in B. cbn in B. lra. }
  cbn. nra.
Qed.
Lemma quarter_turn_lost : exists A, euler2Dcm_f binary64_ops (V3 (rval M_PI_2_64) 0 0) = (true, A) /\
  forall pow2 q M, length q = 4%nat -> mx_rows M = 3%nat -> mx_cols M = 3%nat -> mat3_of_MX M = A ->
  computeQuaternionFromDcm_f binary64_ops pow2 M q = NonFinite.
Proof.
  set (c := rnd64 (cos (rval M_PI_2_64))).
  assert (C : Rabs c < bpow radix2 (-53)).
  { pose proof cos_pi2_64 as (C1 & C2). pose proof (rnd64_model (cos (rval M_PI_2_64))) as E. rewrite (Rabs_right (cos _)) in E by lra. apply Rabs_le_inv in E.
    pose proof u64_bounds. assert (eta64 <= / 10000000000000000000).
    { apply Rle_trans with (bpow radix2 (-64)); [apply bpow_le; lia|cbn; lra]. }
    unfold c. assert (u64 * cos (rval M_PI_2_64) <= / 1000000000000000000) by (apply Rle_trans with (1 / 1000000000000000 * / 10000000000000000); [apply Rmult_le_compat; lra|lra]). change (bpow radix2 (-53)) with (/ 9007199254740992). apply Rabs_def1; lra. }
  eexists. split; [reflexivity|]. intros pow2 q M Lq Rr Rc E. unfold computeQuaternionFromDcm_f. rewrite Lq, Rr, Rc. cbn [Nat.eqb andb]. rewrite E.
  rewrite (tie_lost _ (cos (rval M_PI_2_64))); [reflexivity| | | |exact C];
    cbv beta iota zeta delta [euler2Dcm_f mmul_f binary64_ops fcos fsin fdot frnd vx vy vz row1 row2 row3 col1 col2 col3 m11 m12 m13 m21 m22 m23 m31 m32 m33];
    rewrite ?cos_0, ?sin_0, ?sin_pi2_64, ?rnd64_0, ?rnd64_1; fold c;
    repeat first [rewrite Ropp_0|rewrite Rmult_0_l|rewrite Rmult_0_r|rewrite Rmult_1_l|rewrite Rmult_1_r|rewrite Rplus_0_l|rewrite Rplus_0_r|rewrite rnd64_0|rewrite rnd64_1|rewrite (rnd64_idem (cos (rval M_PI_2_64)) : rnd64 c = c)]; reflexivity.
Qed.

(** A rotation vector just shorter than pi whose quaternion comes out longer
    than 1. *)
Ltac rq m e := rewrite (rnd64_is m e); [cbn [bpow radix2 radix_val Z.pow_pos]; unfold Zpower_pos; cbn; lra|lia|lia|apply Rabs_def1; cbn; lra].
Lemma sqrt_between s lo hi : 0 <= lo -> lo * lo < s -> s < hi * hi -> 0 <= hi -> lo < sqrt s < hi.
Proof.
  intros L1 L2 L3 L4. assert (0 <= s) by nra. split.
  - rewrite <- (sqrt_square lo) by lra. apply sqrt_lt_1_alt. nra.
  - rewrite <- (sqrt_square hi) by lra. apply sqrt_lt_1_alt. nra.
Qed.
Ltac rs m e := rewrite (rnd64_is m e); [cbn; lra|lia|lia|
  match goal with |- Rabs (sqrt ?s - _) < _ => pose proof (sqrt_between s (IZR m * bpow radix2 e - bpow radix2 (e - 1)) (IZR m * bpow radix2 e + bpow radix2 (e - 1))
    ltac:(cbn; lra) ltac:(cbn; lra) ltac:(cbn; lra) ltac:(cbn; lra)) end; apply Rabs_def1; cbn in *; lra].
Lemma t_a : rnd64 ((1246495101 / 536870912) * (1246495101 / 536870912)) = (6069336081316407 / 1125899906842624).
Proof. rq 6069336081316407%Z (-50)%Z. Qed.
Lemma t_b : rnd64 ((2217759605 / 1073741824) * (2217759605 / 1073741824)) = (4803181314032965 / 1125899906842624).
Proof. rq 4803181314032965%Z (-50)%Z. Qed.
Lemma t_c : rnd64 ((495400181 / 1073741824) * (495400181 / 1073741824)) = (1917354213553381 / 9007199254740992).
Proof. rq 7669416854213524%Z (-55)%Z. Qed.
Lemma t_ab : rnd64 ((6069336081316407 / 1125899906842624) + (4803181314032965 / 1125899906842624)) = (2718129348837343 / 281474976710656).
Proof. rq 5436258697674686%Z (-49)%Z. Qed.
Lemma t_s : rnd64 ((2718129348837343 / 281474976710656) + (1917354213553381 / 9007199254740992)) = (1389023334005443 / 140737488355328).
Proof. rq 5556093336021772%Z (-49)%Z. Qed.
Lemma t_m : rnd64 (sqrt (1389023334005443 / 140737488355328)) = (1768559437711359 / 562949953421312).
Proof. rs 7074237750845436%Z (-51)%Z. Qed.
Lemma t_k : rnd64 (1 / (1768559437711359 / 562949953421312)) = (2867080570090783 / 9007199254740992).
Proof. rq 5734161140181566%Z (-54)%Z. Qed.
Lemma t_h : rnd64 ((1768559437711359 / 562949953421312) / 2) = (1768559437711359 / 1125899906842624).
Proof. rq 7074237750845436%Z (-52)%Z. Qed.
Lemma t_ks : rnd64 ((2867080570090783 / 9007199254740992) * 1) = (2867080570090783 / 9007199254740992).
Proof. rq 5734161140181566%Z (-54)%Z. Qed.
Lemma t_q0 : rnd64 ((2867080570090783 / 9007199254740992) * (1246495101 / 536870912)) = (1664181186254345 / 2251799813685248).
Proof. rq 6656724745017380%Z (-53)%Z. Qed.
Lemma t_q1 : rnd64 ((2867080570090783 / 9007199254740992) * (2217759605 / 1073741824)) = (5921810374248503 / 9007199254740992).
Proof. rq 5921810374248503%Z (-53)%Z. Qed.
Lemma t_q2 : rnd64 ((2867080570090783 / 9007199254740992) * (495400181 / 1073741824)) = (5291224395351697 / 36028797018963968).
Proof. rq 5291224395351697%Z (-55)%Z. Qed.
Lemma t_d0 : rnd64 ((1664181186254345 / 2251799813685248) * (1664181186254345 / 2251799813685248)) = (4919618527102399 / 9007199254740992).
Proof. rq 4919618527102399%Z (-53)%Z. Qed.
Lemma t_d1 : rnd64 ((5921810374248503 / 9007199254740992) * (5921810374248503 / 9007199254740992)) = (1946656064597385 / 4503599627370496).
Proof. rq 7786624258389540%Z (-54)%Z. Qed.
Lemma t_d2 : rnd64 ((5291224395351697 / 36028797018963968) * (5291224395351697 / 36028797018963968)) = (3108297575101219 / 144115188075855872).
Proof. rq 6216595150202438%Z (-58)%Z. Qed.
Lemma t_e1 : rnd64 ((4919618527102399 / 9007199254740992) + (1946656064597385 / 4503599627370496)) = (8812930656297169 / 9007199254740992).
Proof. rq 8812930656297169%Z (-53)%Z. Qed.
Lemma t_e2 : rnd64 ((8812930656297169 / 9007199254740992) + (3108297575101219 / 144115188075855872)) = (2251799813685249 / 2251799813685248).
Proof. rq 4503599627370498%Z (-52)%Z. Qed.
Lemma t_n : rnd64 (sqrt (2251799813685249 / 2251799813685248)) = (4503599627370497 / 4503599627370496).
Proof. rs 4503599627370497%Z (-52)%Z. Qed.
Lemma cos_low y : -1 <= y <= 1 -> 1 - y * y / 2 <= cos y.
Proof. intros H. pose proof PI2_1. pose proof (cos_bound y 0 ltac:(lra) ltac:(lra)) as (B & _). unfold cos_approx, sum_f_R0, cos_term in B. cbn in B. lra. Qed.
Lemma half_turn_lost : exists p0 p1 p2 q, norm (V3 p0 p1 p2) < PI /\
  (forall q', length q' = 4%nat -> computeQuaternionFromRotationVec_f binary64_ops [p0; p1; p2] q' = Ret (true, q)) /\
  forall fasin phi, length phi = 3%nat -> computeRotationVecFromQuaternion_f binary64_ops fasin q phi = NonFinite.
Proof.
  pose proof PI_bounds as P. set (H := 1768559437711359 / 1125899906842624). set (y := PI / 2 - H).
  assert (Y : 0 < y < / 1000000000) by (unfold y, H; lra).
  assert (Sn : rnd64 (sin H) = 1).
  { replace (sin H) with (cos y) by apply cos_shift. apply near1. rewrite Rabs_left1 by (pose proof (COS_bound y); lra).
    pose proof (cos_low y ltac:(lra)). change (bpow radix2 (-54)) with (/ 18014398509481984). nra. }
  assert (Cp : 0 <= rnd64 (cos H)).
  { rewrite <- rnd64_0. apply rnd64_le. apply Rlt_le, cos_gt_0; unfold H, y in *; lra. }
  exists (1246495101 / 536870912), (2217759605 / 1073741824), (495400181 / 1073741824).
  exists [rnd64 (cos H); 1664181186254345 / 2251799813685248; 5921810374248503 / 9007199254740992; 5291224395351697 / 36028797018963968].
  split; [|split].
  - unfold norm, dot. cbn [vx vy vz]. rewrite <- (sqrt_square PI) by lra. apply sqrt_lt_1_alt. split; [lra|].
    apply Rlt_le_trans with (3.14159265358979323 * 3.14159265358979323); [lra|]. apply Rmult_le_compat; lra.
  - intros q' L. unfold computeQuaternionFromRotationVec_f. rewrite L. cbn [Nat.eqb]. unfold quat_of_rotvec_f. cbv zeta. cbn [binary64_ops frnd fsin fcos].
    rewrite t_a, t_b, t_c, t_ab, t_s. unfold sqrtc. destruct (Rlt_dec _ 0) as [B|_]; [lra|]. cbn [bind]. rewrite t_m.
    rewrite Rdivc_ok by lra. cbn [bind]. rewrite t_k, t_h. fold H. rewrite Sn, t_ks, t_q0, t_q1, t_q2. reflexivity.
  - intros fasin phi L. unfold computeRotationVecFromQuaternion_f. rewrite L. cbn [Nat.eqb]. unfold rotvec_of_quat_f. cbv zeta.
    destruct (Rlt_dec (rnd64 (cos H)) 0) as [B|_]; [lra|]. cbn [binary64_ops frnd fdot vx vy vz]. rewrite t_d0, t_d1, t_d2, t_e1, t_e2.
    unfold sqrtc. destruct (Rlt_dec _ 0) as [B|_]; [lra|]. cbn [bind]. rewrite t_n.
    assert (T : rnd64 (1 / 1000000) <= 1) by (rewrite <- rnd64_1 at 2; apply rnd64_le; lra).
    destruct (Rlt_dec _ _) as [_|B]; [|lra]. rewrite !Rdivc_ok by lra. cbn [bind]. unfold asinc_f. destruct (Rlt_dec _ (-1)) as [B|_]; [lra|].
    destruct (Rlt_dec 1 _) as [_|B]; [reflexivity|lra].
Qed.

(** Accuracy away from half turns. *)
Lemma sin_lip a b m : - (PI / 2) <= a <= PI / 2 -> - (PI / 2) <= b <= PI / 2 -> 0 < m -> m <= cos a -> m <= cos b -> Rabs (a - b) <= Rabs (sin a - sin b) / m.
Proof.
  intros Ha Hb Hm Ca Cb.
  assert (W : forall s t, s < t -> - (PI / 2) <= s -> t <= PI / 2 -> m <= cos s -> m <= cos t -> t - s <= (sin t - sin s) / m).
  { intros s t L Ls Lt Cs Ct. destruct (MVT_cor2 sin cos s t L) as (z & E & Z). { intros. apply derivable_pt_lim_sin. }
    assert (Cz : m <= cos z).
    { destruct (Rle_lt_dec z 0) as [Q|Q].
      - apply Rle_trans with (cos s); auto. rewrite <- (cos_neg s), <- (cos_neg z). apply cos_decr_1; lra.
      - apply Rle_trans with (cos t); auto. apply cos_decr_1; lra. }
    rewrite E. apply Rmult_le_reg_r with m; auto. unfold Rdiv. rewrite Rmult_assoc, Rinv_l by lra. nra. }
  destruct (Rtotal_order a b) as [L|[->|L]].
  - specialize (W a b L ltac:(lra) ltac:(lra) Ca Cb). assert (sin a <= sin b) by (apply sin_incr_1; lra).
    rewrite (Rabs_left (a - b)), (Rabs_left1 (sin a - sin b)) by lra. replace (- (sin a - sin b)) with (sin b - sin a) by ring. lra.
  - rewrite !Rminus_eq_0, Rabs_R0. unfold Rdiv. lra.
  - specialize (W b a L ltac:(lra) ltac:(lra) Cb Ca). assert (sin b <= sin a) by (apply sin_incr_1; lra).
    rewrite (Rabs_right (a - b)), (Rabs_right (sin a - sin b)) by lra. lra.
Qed.
Lemma asin_lip x y : 0 <= x <= 9951 / 10000 -> 0 <= y <= 9951 / 10000 -> Rabs (asin x - asin y) <= 11 * Rabs (x - y).
Proof.
  intros X Y. assert (C : forall z, 0 <= z <= 9951 / 10000 -> 1 / 11 <= cos (asin z)).
  { intros z Z. rewrite cos_asin by lra. apply Rle_trans with (sqrt ((1 / 11) * (1 / 11))); [rewrite sqrt_square; lra|]. apply sqrt_le_1_alt. unfold Rsqr. nra. }
  pose proof (asin_bound x). pose proof (asin_bound y).
  pose proof (sin_lip (asin x) (asin y) (1 / 11) ltac:(lra) ltac:(lra) ltac:(lra) (C x X) (C y Y)) as L. rewrite !sin_asin in L by lra. lra.
Qed.
