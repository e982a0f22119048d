(** Binary64 meets the error model; the limits of the range; the time step. *)
From Coq Require Import Reals ZArith List Lra Lia Psatz.
From Flocq Require Import Core Relative IEEE754.Binary IEEE754.Bits IEEE754.BinarySingleNaN.
From Verif Require Import Base BaseVec SpecRot SpecFloat ModelAttitude ModelNavUtils ModelStrapdown ModelDate ModelStrapdownFloat
  SpecStrapdown SpecFloatOps ProofVec ProofAttitude ProofAttitude2 ProofStrapdown ProofStrapdown2 ProofDate ProofStrapdownFloat.
Import ListNotations.
Open Scope R_scope.

Lemma rnd64_model x : Rabs (rnd64 x - x) <= u64 * Rabs x + eta64.
Proof.
  destruct (error_N_FLT radix2 (-1074) 53 ltac:(lia) (fun z => negb (Z.even z)) x) as (e & h & He & Hh & _ & E).
  fold rnd64 in E. rewrite E. replace (x * (1 + e) + h - x) with (x * e + h) by ring.
  eapply Rle_trans; [apply Rabs_triang|]. rewrite Rabs_mult.
  assert (He' : Rabs e <= u64) by (eapply Rle_trans; [exact He|]; unfold u64; cbn; lra).
  replace (/ 2 * bpow radix2 (-1074)) with eta64 in Hh.
  - pose proof (Rabs_pos x). assert (Rabs x * Rabs e <= Rabs x * u64) by (apply Rmult_le_compat_l; lra). lra.
  - unfold eta64. replace (-1075)%Z with (-1 + -1074)%Z by lia. rewrite bpow_plus. f_equal.
Qed.
Lemma sum3_model a b c :
  Rabs (rnd64 (rnd64 (rnd64 a + rnd64 b) + rnd64 c) - (a + b + c)) <= 4 * u64 * (Rabs a + Rabs b + Rabs c) + 8 * eta64.
Proof.
  pose proof (rnd64_model a) as A. pose proof (rnd64_model b) as B. pose proof (rnd64_model c) as C.
  set (p := rnd64 a) in *. set (q := rnd64 b) in *. set (r := rnd64 c) in *. clearbody p q r.
  pose proof (rnd64_model (p + q)) as S. set (s := rnd64 (p + q)) in *. clearbody s.
  pose proof (rnd64_model (s + r)) as T. set (t := rnd64 (s + r)) in *. clearbody t.
  pose proof u64_bounds as U. pose proof eta_pos as E.
  pose proof (Rabs_pos a). pose proof (Rabs_pos b). pose proof (Rabs_pos c).
  pose proof (abs_near _ _ _ _ A (Rle_refl _)) as A'. pose proof (abs_near _ _ _ _ B (Rle_refl _)) as B'.
  pose proof (abs_near _ _ _ _ C (Rle_refl _)) as C'.
  set (x := Rabs a) in *. set (y := Rabs b) in *. set (z := Rabs c) in *.
  assert (PQ : Rabs (p + q) <= (x + y) * (1001 / 1000) + 2 * eta64).
  { eapply Rle_trans; [apply Rabs_triang|]. assert (u64 * (x + y) <= 1 / 1000 * (x + y)) by (apply Rmult_le_compat_r; lra). lra. }
  assert (S1 : Rabs (s - (p + q)) <= u64 * ((x + y) * (1001 / 1000) + 2 * eta64) + eta64).
  { eapply Rle_trans; [exact S|]. apply Rplus_le_compat_r. apply Rmult_le_compat_l; lra. }
  assert (S2 : Rabs s <= (x + y) * (1003 / 1000) + 4 * eta64).
  { pose proof (abs_near _ _ _ _ S1 PQ) as K. eapply Rle_trans; [exact K|].
    assert (u64 * ((x + y) * (1001 / 1000) + 2 * eta64) <= 1 / 1000 * ((x + y) * (1001 / 1000) + 2 * eta64)) by (apply Rmult_le_compat_r; lra). lra. }
  assert (SR : Rabs (s + r) <= (x + y + z) * (1003 / 1000) + 5 * eta64).
  { eapply Rle_trans; [apply Rabs_triang|]. assert (u64 * z <= 1 / 1000 * z) by (apply Rmult_le_compat_r; lra). lra. }
  assert (T1 : Rabs (t - (s + r)) <= u64 * ((x + y + z) * (1003 / 1000) + 5 * eta64) + eta64).
  { eapply Rle_trans; [exact T|]. apply Rplus_le_compat_r. apply Rmult_le_compat_l; lra. }
  assert (UE : u64 * eta64 <= 1 / 1000 * eta64) by (apply Rmult_le_compat_r; lra).
  assert (0 <= u64 * x) by nra. assert (0 <= u64 * y) by nra. assert (0 <= u64 * z) by nra.
  apply Rabs_le_inv in A. apply Rabs_le_inv in B. apply Rabs_le_inv in C. apply Rabs_le_inv in S1. apply Rabs_le_inv in T1.
  apply Rabs_le. split; lra.
Qed.
Lemma binary64_ok : float_ok binary64_ops.
Proof.
  split; [exact rnd64_model|]. split; [intros a b; apply sum3_model|].
  assert (Q : forall y, Rabs y <= 1 -> Rabs (rnd64 y - y) <= 2 * u64).
  { intros y Hy. eapply Rle_trans; [apply rnd64_model|]. pose proof u64_bounds. pose proof eta_u. pose proof eta_pos. nra. }
  split; intros x; apply Q; apply Rabs_le; [apply SIN_bound|apply COS_bound].
Qed.

(** Exact arithmetic gives the model of ModelStrapdown.v. *)
Lemma exact_update A d : updateAttitude_f exact_ops A d = updateAttitude A d.
Proof.
  unfold updateAttitude_f, updateAttitude, sqrtc. cbn [exact_ops frnd fdot fsin fcos].
  destruct (Rlt_dec (dot d d) 0) as [L|_].
  { pose proof (norm_sq d). pose proof (norm_nonneg d). nra. }
  reflexivity.
Qed.
Lemma exact_ok : float_ok exact_ops.
Proof.
  pose proof u64_bounds as U. pose proof eta_pos as E. split; [|split; [|split]]; cbn; intros; rewrite Rminus_eq_0, Rabs_R0.
  - pose proof (Rabs_pos x). nra.
  - pose proof (Rabs_pos (vx a * vx b)). pose proof (Rabs_pos (vy a * vy b)). pose proof (Rabs_pos (vz a * vz b)).
    assert (0 <= u64 * (Rabs (vx a * vx b) + Rabs (vy a * vy b) + Rabs (vz a * vz b))) by (apply Rmult_le_pos; lra). lra.
  - lra.
  - lra.
Qed.

(** Increments too short for binary64. *)
Lemma rnd64_tiny x : Rabs x < bpow radix2 (-1075) -> rnd64 x = 0.
Proof.
  intros H. destruct (Req_dec x 0) as [->|N]; [apply round_0, valid_rnd_N|].
  apply round_N_small with (ex := mag radix2 x).
  - destruct (mag radix2 x) as (e & He). cbn. auto.
  - assert (mag radix2 x <= -1075)%Z by now apply mag_le_bpow. unfold FLT_exp. lia.
Qed.
Lemma short_sq x : Rabs x < bpow radix2 (-538) -> Rabs (x * x) < bpow radix2 (-1075).
Proof.
  intros H. rewrite Rabs_mult. apply Rlt_trans with (bpow radix2 (-538) * bpow radix2 (-538)).
  - pose proof (Rabs_pos x). apply Rmult_le_0_lt_compat; auto.
  - rewrite <- bpow_plus. apply bpow_lt. lia.
Qed.
Lemma short_lost A d : norm d < bpow radix2 (-538) -> updateAttitude_f binary64_ops A d = NonFinite.
Proof.
  intros H. destruct (comp_le d) as (H1 & H2 & H3).
  assert (Z : rnd64 0 = 0) by apply round_0, valid_rnd_N.
  unfold updateAttitude_f. cbn [binary64_ops frnd fdot fsin fcos].
  rewrite (rnd64_tiny (vx d * vx d)), (rnd64_tiny (vy d * vy d)), (rnd64_tiny (vz d * vz d))
    by (apply short_sq; eapply Rle_lt_trans; eassumption).
  rewrite !Rplus_0_r, !Z. unfold sqrtc. destruct (Rlt_dec 0 0); [lra|]. cbn [bind].
  rewrite sqrt_0, Z. cbn [skewSymmetric negb]. rewrite Rdivc_0. reflexivity.
Qed.
Lemma update_f_total F A d : updateAttitude_f F A d = NonFinite \/ exists A', updateAttitude_f F A d = Ret (true, A').
Proof.
  unfold updateAttitude_f, sqrtc, Rdivc. destruct (Rlt_dec _ 0); [now left|]. cbn [bind skewSymmetric negb].
  destruct (Req_EM_T _ 0); [now left|]. cbn [bind]. destruct (Req_EM_T _ 0); [now left|]. cbn [bind]. right. eauto.
Qed.
Lemma chain_lost l : forall A d, In d l -> norm d < bpow radix2 (-538) -> attitude_f binary64_ops A l = NonFinite.
Proof.
  induction l as [|d0 l IH]; intros A d; [intros []|]. intros I H. cbn [attitude_f].
  destruct (update_f_total binary64_ops A d0) as [E|(A' & E)].
  - now rewrite E.
  - rewrite E. cbn [bind snd]. destruct I as [->|I].
    + rewrite short_lost in E by auto. discriminate.
    + now apply (IH A' d).
Qed.

(** ** The time step *)
Lemma timeStep_ok t t0 : (- 2 ^ 63 <= t - t0 < 2 ^ 63)%Z ->
  exists b, timeStep64 t t0 = Ret b /\ finite64 b /\ rval b = rnd64 (rnd64 (IZR (t - t0)) / 1000000).
Proof.
  intros H. unfold timeStep64. set (d := (t - t0)%Z) in *.
  replace (d <? _)%Z with false by (symmetry; apply Z.ltb_ge; lia). replace (_ <? d)%Z with false by (symmetry; apply Z.ltb_ge; lia).
  cbn [orb]. eexists. split; [reflexivity|].
  destruct (doubleOfZ_ok d ltac:(lia)) as [T1 T2]. destruct (doubleOfZ_ok 1000000 ltac:(lia)) as [M1 M2].
  unfold finite64, rval, b64_div.
  pose proof (Binary.Bdiv_correct 53 1024 (eq_refl _) (eq_refl _) binop_nan_pl64 mode_NE (doubleOfZ d) (doubleOfZ 1000000)) as C.
  rewrite T1, M1, rnd64_million in C. specialize (C ltac:(lra)).
  change (round radix2 _ (round_mode mode_NE) (rnd64 (IZR d) / 1000000)) with (rnd64 (rnd64 (IZR d) / 1000000)) in C.
  rewrite (small_lt _ 63) in C; [|lia|].
  - rewrite T2 in C. destruct C as (C1 & C2 & _). split; auto.
  - apply rnd64_bound; [lia|]. apply div_million_bound. apply rnd64_bound; [lia|].
    rewrite bpow_Z, <- abs_IZR by lia. apply IZR_le. lia.
Qed.
Lemma timeStep_exact t t0 : (Z.abs (t - t0) <= 2 ^ 52)%Z ->
  exists b, timeStep64 t t0 = Ret b /\ finite64 b /\ rval b = rnd64 (IZR (t - t0) / 1000000).
Proof.
  intros H. destruct (timeStep_ok t t0) as (b & E & Fb & V); [lia|]. exists b. rewrite V, rnd64_int by lia. auto.
Qed.
Lemma step_error d : (Z.abs d <= 2 ^ 52)%Z -> Rabs (rnd64 (IZR d / 1000000) - IZR d / 1000000) <= bpow radix2 (-21).
Proof.
  intros H. apply (rnd64_error _ 33); [lia|]. unfold Rdiv. rewrite Rabs_mult, (Rabs_right (/ 1000000)), <- abs_IZR by lra.
  apply IZR_le in H. cbn. cbn in H. lra.
Qed.
Lemma step_strict d d' : (Z.abs d <= 2 ^ 52)%Z -> (Z.abs d' <= 2 ^ 52)%Z -> (d < d')%Z ->
  rnd64 (IZR d / 1000000) < rnd64 (IZR d' / 1000000).
Proof.
  intros H H' L. pose proof (step_error d H) as E. pose proof (step_error d' H') as E'.
  apply Rabs_le_inv in E. apply Rabs_le_inv in E'. assert (B : bpow radix2 (-21) <= 48 / 100000000) by (cbn; lra).
  assert (IZR d + 1 <= IZR d') by (rewrite <- plus_IZR; apply IZR_le; lia). lra.
Qed.

(** ** Statements for the property file *)
Lemma chain_rotation F A0 A e l : float_ok F -> is_rotation A0 -> close_to e A (mvmul A0) -> 0 <= e ->
  (forall d, In d l -> bpow radix2 (-480) <= norm d <= 4) -> e + 2100 * u64 * INR (length l) <= 1 ->
  exists A', attitude_f F A l = Ret A' /\
    close_to (e + 2100 * u64 * INR (length l)) A' (fun v => mvmul A0 (fold_right rotvec v l)).
Proof. intros HF R C E H N. apply (chain F HF l e A (mvmul A0)); auto. intros v. now apply norm_rotated. Qed.
Lemma close_refl A : close_to 0 A (mvmul A).
Proof.
  intros v. replace (vsub (mvmul A v) (mvmul A v)) with v3zero by (unfold vsub, v3zero; apply v3_eq; cbn; ring).
  rewrite norm_zero. lra.
Qed.
Lemma fold_norm l : (forall d, In d l -> d <> v3zero) -> exists B, is_rotation B /\ forall v, mvmul B v = fold_right rotvec v l.
Proof.
  induction l as [|d l IH]; intros H.
  - exists m3id. split; [apply rotation_id|]. apply mvmul_id.
  - destruct IH as (B & RB & EB); [intros; apply H; now right|].
    exists (mmul (axis_matrix (vscale (/ norm d) d) (norm d)) B). split.
    + apply rotation_mmul; auto. apply axis_matrix_rotation, ProofStrapdown.unit_axis, H. now left.
    + intros w. rewrite mvmul_mmul, EB, axis_matrix_rotate. reflexivity.
Qed.
Lemma chain_orthogonal F A0 l : float_ok F -> is_rotation A0 ->
  (forall d, In d l -> bpow radix2 (-480) <= norm d <= 4) -> 2100 * u64 * INR (length l) <= 1 ->
  exists A', attitude_f F A0 l = Ret A' /\
    forall v w, Rabs (dot (mvmul A' v) (mvmul A' w) - dot v w) <= 6300 * u64 * INR (length l) * (norm v * norm w).
Proof.
  intros HF R H N. destruct (chain_rotation F A0 A0 0 l HF R (close_refl A0) (Rle_refl 0) H ltac:(lra)) as (A' & E & C).
  exists A'. split; [exact E|]. intros v w.
  destruct (fold_norm l) as (B & RB & EB). { intros d Hd Z. apply H in Hd. rewrite Z, norm_zero in Hd. pose proof mu_pos. unfold mu in *. lra. }
  pose proof (rotation_mmul _ _ R RB) as RAB. set (D := mmul A0 B) in *.
  assert (CD : forall x, norm (vsub (mvmul A' x) (mvmul D x)) <= 2100 * u64 * INR (length l) * norm x).
  { intros x. unfold D. rewrite mvmul_mmul, EB. rewrite <- (Rplus_0_l (2100 * u64 * INR (length l))). apply C. }
  pose proof (norm_rotated D) as ND. set (e := 2100 * u64 * INR (length l)) in *.
  assert (E0 : 0 <= e). { unfold e. pose proof u64_bounds. pose proof (pos_INR (length l)). apply Rmult_le_pos; lra. }
  set (a := vsub (mvmul A' v) (mvmul D v)) in *. set (b := vsub (mvmul A' w) (mvmul D w)) in *.
  assert (DD : dot (mvmul D v) (mvmul D w) = dot v w).
  { apply RAB. }
  replace (dot (mvmul A' v) (mvmul A' w)) with (dot (mvmul D v) (mvmul D w) + (dot a (mvmul D w) + (dot (mvmul D v) b + dot a b)))
    by (unfold a, b; destruct (mvmul A' v), (mvmul A' w), (mvmul D v), (mvmul D w); unfold dot, vsub; cbn; ring).
  rewrite DD. replace (dot v w + (dot a (mvmul D w) + (dot (mvmul D v) b + dot a b)) - dot v w)
    with (dot a (mvmul D w) + (dot (mvmul D v) b + dot a b)) by ring.
  pose proof (CD v) as Ca. fold a in Ca. pose proof (CD w) as Cb. fold b in Cb.
  pose proof (cauchy a (mvmul D w)) as K1. pose proof (cauchy (mvmul D v) b) as K2. pose proof (cauchy a b) as K3.
  rewrite !ND in * by auto. pose proof (norm_nonneg v). pose proof (norm_nonneg w). pose proof (norm_nonneg a). pose proof (norm_nonneg b).
  eapply Rle_trans; [apply Rabs_triang|]. eapply Rle_trans; [apply Rplus_le_compat_l, Rabs_triang|].
  set (nv := norm v) in *. set (nw := norm w) in *.
  assert (P : 0 <= nv * nw) by nra.
  assert (norm a * nw <= e * nv * nw) by (apply Rmult_le_compat_r; lra).
  assert (nv * norm b <= nv * (e * nw)) by (apply Rmult_le_compat_l; lra).
  assert (norm a * norm b <= (e * nv) * (e * nw)) by (apply Rmult_le_compat; lra).
  assert ((e * nv) * (e * nw) <= e * (nv * nw)).
  { replace ((e * nv) * (e * nw)) with (e * (e * (nv * nw))) by ring. apply Rmult_le_compat_l; [lra|]. nra. }
  replace (6300 * u64 * INR (length l)) with (3 * e) by (unfold e; ring). lra.
Qed.
Lemma long_finite A0 l : is_rotation A0 ->
  (forall d, In d l -> bpow radix2 (-480) <= norm d <= 4) -> 2100 * u64 * INR (length l) <= 1 ->
  exists A', attitude_f binary64_ops A0 l = Ret A'.
Proof. intros R H N. destruct (chain_orthogonal binary64_ops A0 l binary64_ok R H N) as (A' & E & _). eauto. Qed.
Lemma short_refuted :
  (forall A l d, In d l -> norm d < bpow radix2 (-538) -> attitude_f binary64_ops A l = NonFinite) /\
  exists d, d <> v3zero /\ norm d < bpow radix2 (-538).
Proof.
  split; [intros; eapply chain_lost; eauto|]. exists (V3 0 0 (bpow radix2 (-600))).
  pose proof (bpow_gt_0 radix2 (-600)). split.
  - intros E. apply (f_equal vz) in E. cbn [vz v3zero] in E. lra.
  - unfold norm, dot; cbn [vx vy vz]. rewrite !Rmult_0_l, !Rplus_0_l, sqrt_square by lra. apply bpow_lt. lia.
Qed.
Lemma step_near t t0 : (Z.abs (t - t0) <= 2 ^ 52)%Z ->
  exists b, timeStep64 t t0 = Ret b /\ finite64 b /\ Rabs (rval b - IZR (t - t0) / 1000000) < 5 / 10000000.
Proof.
  intros H. destruct (timeStep_exact t t0 H) as (b & E & Fb & V). exists b. split; [exact E|]. split; [exact Fb|].
  rewrite V. eapply Rle_lt_trans; [apply step_error, H|]. cbn. lra.
Qed.
Lemma step_increasing t t' t0 b b' : (Z.abs (t - t0) <= 2 ^ 52)%Z -> (Z.abs (t' - t0) <= 2 ^ 52)%Z ->
  timeStep64 t t0 = Ret b -> timeStep64 t' t0 = Ret b' -> (t < t')%Z -> rval b < rval b'.
Proof.
  intros H H' E E' L. destruct (timeStep_exact t t0 H) as (c & E1 & _ & V). destruct (timeStep_exact t' t0 H') as (c' & E1' & _ & V').
  rewrite E1 in E. rewrite E1' in E'. inversion E; inversion E'; subst. rewrite V, V'. apply step_strict; auto. lia.
Qed.
Lemma step_sign t t0 b : (Z.abs (t - t0) <= 2 ^ 52)%Z -> timeStep64 t t0 = Ret b ->
  (rval b = 0 <-> t = t0) /\ (0 < rval b <-> (t0 < t)%Z).
Proof.
  intros H E. destruct (timeStep_exact t t0 H) as (c & E1 & _ & V). rewrite E1 in E. inversion E; subst c. rewrite V.
  assert (Z0 : rnd64 (IZR 0 / 1000000) = 0) by (unfold Rdiv; rewrite Rmult_0_l; apply round_0, valid_rnd_N).
  destruct (Ztrichotomy t t0) as [L|[->|G]].
  - pose proof (step_strict (t - t0) 0 ltac:(lia) ltac:(lia) ltac:(lia)) as S. rewrite Z0 in S. split; split; intros; try lra; try lia.
  - rewrite Z.sub_diag, Z0. split; [tauto|]. split; intros K; [lra|lia].
  - pose proof (step_strict 0 (t - t0) ltac:(lia) ltac:(lia) ltac:(lia)) as S. rewrite Z0 in S. split; split; intros; try lra; try lia.
Qed.

(** ** The initial attitude *)
Lemma euler_R_norm c s v : c * c + s * s = 1 ->
  norm (mvmul (M3 1 0 0 0 c s 0 (- s) c) v) = norm v /\
  norm (mvmul (M3 c 0 (- s) 0 1 0 s 0 c) v) = norm v /\
  norm (mvmul (M3 c s 0 (- s) c 0 0 0 1) v) = norm v.
Proof.
  intros H. assert (Hc : c * c = 1 - s * s) by lra. unfold norm. destruct v as [x y z]. unfold dot; cbn.
  repeat split; f_equal; ring [Hc].
Qed.
Lemma euler_near F rph : float_ok F ->
  close_to (210 * u64) (snd (euler2Dcm_f F rph)) (mvmul (snd (euler2Dcm rph))).
Proof.
  intros HF. destruct rph as [e1 e2 e3]. unfold euler2Dcm_f, euler2Dcm, euler_R1, euler_R2, euler_R3. cbn [snd vx vy vz].
  pose proof (proj1 (proj2 (proj2 HF))) as HS. pose proof (proj2 (proj2 (proj2 HF))) as HC. pose proof u64_bounds as U.
  assert (Z : forall x, Rabs (x - x) <= 2 * u64) by (intros; rewrite Rminus_eq_0, Rabs_R0; lra).
  assert (HN : forall x, Rabs (- fsin F x - - sin x) <= 2 * u64).
  { intros x. replace (- fsin F x - - sin x) with (- (fsin F x - sin x)) by ring. now rewrite Rabs_Ropp. }
  assert (CS : forall x, cos x * cos x + sin x * sin x = 1) by (intros x; pose proof (sin2_cos2 x); unfold Rsqr in *; lra).
  pose proof (fun v => proj1 (euler_R_norm _ _ v (CS e1))) as K1.
  pose proof (fun v => proj1 (proj2 (euler_R_norm _ _ v (CS e2)))) as K2.
  pose proof (fun v => proj2 (proj2 (euler_R_norm _ _ v (CS e3)))) as K3.
  set (R1 := M3 1 0 0 0 (cos e1) (sin e1) 0 (- sin e1) (cos e1)) in *.
  set (R2 := M3 (cos e2) 0 (- sin e2) 0 1 0 (sin e2) 0 (cos e2)) in *.
  set (R3 := M3 (cos e3) (sin e3) 0 (- sin e3) (cos e3) 0 0 0 1) in *.
  assert (N1 : near (2 * u64) (M3 1 0 0 0 (fcos F e1) (fsin F e1) 0 (- fsin F e1) (fcos F e1)) R1) by (repeat split; cbn; auto).
  assert (N2 : near (2 * u64) (M3 (fcos F e2) 0 (- fsin F e2) 0 1 0 (fsin F e2) 0 (fcos F e2)) R2) by (repeat split; cbn; auto).
  assert (N3 : near (2 * u64) (M3 (fcos F e3) (fsin F e3) 0 (- fsin F e3) (fcos F e3) 0 0 0 1) R3) by (repeat split; cbn; auto).
  pose proof (near_op _ _ _ N1) as C1.
  pose proof (prod_close F HF _ 2 _ _ _ R2 K1 C1 ltac:(lra) K2 N2 ltac:(lra)) as C2.
  assert (K12 : forall v, norm (mvmul R1 (mvmul R2 v)) = norm v) by (intros; now rewrite K1, K2).
  pose proof (prod_close F HF _ 2 _ _ _ R3 K12 C2 ltac:(lra) K3 N3 ltac:(lra)) as C3.
  intros v. rewrite !mvmul_mmul. eapply Rle_trans; [apply C3|]. apply Rmult_le_compat_r; [apply norm_nonneg|lra].
Qed.
Lemma init_chain F rph l : float_ok F ->
  (forall d, In d l -> bpow radix2 (-480) <= norm d <= 4) -> 2100 * u64 * (INR (length l) + 1) <= 1 ->
  exists A', attitude_f F (snd (euler2Dcm_f F rph)) l = Ret A' /\
    close_to (2100 * u64 * (INR (length l) + 1)) A' (fun v => mvmul (snd (euler2Dcm rph)) (fold_right rotvec v l)).
Proof.
  intros HF H N. pose proof u64_bounds as U. pose proof (pos_INR (length l)) as P.
  assert (R : is_rotation (snd (euler2Dcm rph))).
  { apply euler_matrix_rotation. }
  destruct (chain_rotation F _ _ (210 * u64) l HF R (euler_near F rph HF)) as (A' & E & C); auto; try lra.
  exists A'. split; [exact E|]. intros v. eapply Rle_trans; [apply C|]. apply Rmult_le_compat_r; [apply norm_nonneg|]. lra.
Qed.
