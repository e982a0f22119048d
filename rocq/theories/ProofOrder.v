(** A vehicle at rest on the equator that rolls: what the navigator computes. *)
From Coq Require Import Reals ZArith List Lra Lia Psatz.
From Coquelicot Require Import Coquelicot.
From Verif Require Import Base BaseVec SpecRot SpecEarth SpecStrapdown SpecConverge SpecOrder ModelGravity ModelNavUtils ModelStrapdown
  ProofVec ProofAttitude ProofAttitude2 ProofGravity ProofFrames ProofFrames2 ProofNavUtils ProofStrapdown ProofLip ProofConverge.
Import ListNotations.
Open Scope R_scope.

Definition eqst (lon z e d : R) : vec3 * vec3 := (V3 0 lon z, V3 0 e d).
Definition cor (z e : R) : R := 2 * gp_wE + e / (gp_a + z).
Lemma Nr_0 : Nr 0 = gp_a.
Proof. unfold Nr, W2. rewrite sin_0, !Rmult_0_r, Rminus_0_r, sqrt_1. unfold Rdiv. rewrite Rinv_1. ring. Qed.
Lemma eq_dyn lon z e d p q g h : h <> 0 -> Rabs z <= 1 ->
  strapdownDynamics (eqst lon z e d) (V3 0 p q) (V3 0 0 g) h = Ret (eqst (e / (gp_a + z)) (- d) (p / h + cor z e * d) (q / h + g - cor z e * e)).
Proof.
  intros Hh Hz. apply Rabs_le_between in Hz.
  assert (Ha : gp_a + z <> 0) by (unfold gp_a; lra).
  assert (Hr : regular (eqst lon z e d)).
  { apply (box_regular 0 1 (Rabs e + Rabs d)); try (pose proof PI_RGT_0; lra); pose proof (Rabs_pos e); pose proof (Rabs_pos d); try lra.
    unfold Box, eqst. cbn. rewrite Rabs_R0. assert (Rabs z <= 1) by (apply Rabs_le; lra). repeat split; lra. }
  rewrite dynamics_ok by assumption. unfold dyn, lat_rate, lon_rate, eqst, cor. cbn. rewrite Nr_0, sin_0, cos_0, !Rmult_1_r, !Rmult_0_r.
  f_equal. f_equal; apply v3_eq; unfold Rdiv; ring.
Qed.
Lemma eq_grav lon z e d : grav (eqst lon z e d) = V3 0 0 (gp_gEq * g_alt 0 z).
Proof. unfold grav, eqst. cbn. rewrite sin_0, !Rmult_0_r, sin_0, g_ell_0. apply v3_eq; ring. Qed.

(** Numbers. *)
Lemma cor_bound z e : Rabs z <= 1 -> Rabs e <= 1 -> Rabs (cor z e) <= 15 / 100000.
Proof.
  intros Hz He. apply Rabs_le_between in Hz, He. unfold cor, gp_wE, gp_a.
  assert (B : Rabs (e / (6378137 + z)) <= 2 / 10000000).
  { unfold Rdiv. rewrite Rabs_mult, (Rabs_right (/ (6378137 + z))) by (apply Rle_ge, Rlt_le, Rinv_0_lt_compat; lra).
    apply Rmult_le_reg_r with (6378137 + z); [lra|]. rewrite Rmult_assoc, Rinv_l by lra. assert (Rabs e <= 1) by (apply Rabs_le; lra). lra. }
  apply Rabs_le_between in B. apply Rabs_le. lra.
Qed.
Lemma galt_bound z : Rabs z <= 1 -> Rabs (gp_gEq * g_alt 0 z - gp_gEq) <= 4 / 1000000 * Rabs z.
Proof.
  intros Hz. pose proof g_m_bounds as Hm. pose proof gp_f_bounds as Hf. unfold g_alt. rewrite Rmult_0_r, Rminus_0_r. set (k := 1 + gp_f + g_m). assert (Hk : 1 < k < 101 / 100) by (unfold k; lra).
  clearbody k. replace (gp_gEq * (1 - 2 / gp_a * k * z + 3 * (z * z) / (gp_a * gp_a)) - gp_gEq) with (z * (gp_gEq * (3 * z / (gp_a * gp_a) - 2 * k / gp_a))) by (unfold gp_a; field).
  rewrite Rabs_mult, Rmult_comm. apply Rmult_le_compat_r; [apply Rabs_pos|]. apply Rabs_le_between in Hz. unfold gp_gEq, gp_a. apply Rabs_le. lra.
Qed.
Lemma cos_low x : 1 - x * x / 2 <= cos x.
Proof.
  replace x with (2 * (x / 2)) at 3 by field. rewrite cos_2a_sin.
  assert (S : Rabs (sin (x / 2)) <= Rabs (x / 2)).
  { destruct (Rle_dec 0 (x / 2)) as [P|P].
    - destruct (mvt sin cos 0 (x / 2) P) as (c & _ & E); [intros; apply is_derive_Reals, derivable_pt_lim_sin|]. rewrite Rplus_0_l, sin_0, Rminus_0_r in E. rewrite E, Rabs_mult.
      pose proof (COS_bound c). assert (Rabs (cos c) <= 1) by (apply Rabs_le; lra). pose proof (Rabs_pos (x / 2)). nra.
    - destruct (mvt sin cos 0 (- (x / 2)) ltac:(lra)) as (c & _ & E); [intros; apply is_derive_Reals, derivable_pt_lim_sin|]. rewrite Rplus_0_l, sin_0, Rminus_0_r, sin_neg in E.
      replace (sin (x / 2)) with (x / 2 * cos c) by lra. rewrite Rabs_mult. pose proof (COS_bound c). assert (Rabs (cos c) <= 1) by (apply Rabs_le; lra). pose proof (Rabs_pos (x / 2)). nra. }
  apply Rsqr_le_abs_1 in S. unfold Rsqr in S. lra.
Qed.
Lemma sinc_low h : 0 < h -> 1 - h * h / 2 <= sin h / h <= 1.
Proof.
  intros Hh. destruct (mvt sin cos 0 h ltac:(lra)) as (c & Hc & E); [intros; apply is_derive_Reals, derivable_pt_lim_sin|]. rewrite Rplus_0_l, sin_0, Rminus_0_r in E. rewrite E.
  replace (h * cos c / h) with (cos c) by (field; lra). pose proof (cos_low c). pose proof (COS_bound c). split; [|lra]. nra.
Qed.
Lemma east_bound h : 0 < h <= 1 / 10 -> 48 / 10 * h <= gp_gEq * (1 - cos h) / h <= 49 / 10 * h.
Proof.
  intros Hh. pose proof (sinc_low (h / 2) ltac:(lra)) as [S1 S2]. replace (cos h) with (cos (2 * (h / 2))) by (f_equal; field). rewrite cos_2a_sin.
  set (s := sin (h / 2)) in *. set (u := s / (h / 2)) in *. replace s with (h / 2 * u) by (unfold u; field; lra).
  replace (gp_gEq * (1 - (1 - 2 * (h / 2 * u) * (h / 2 * u))) / h) with (gp_gEq / 2 * (u * u) * h) by (field; lra).
  assert (U : 998 / 1000 <= u <= 1) by (split; [nra|exact S2]). assert (0.996 <= u * u <= 1) by nra.
  unfold gp_gEq. split; apply Rmult_le_compat_r; lra.
Qed.
Lemma down_bound h : 0 < h <= 1 / 10 -> Rabs (gp_gEq - gp_gEq * sin h / h) <= 49 / 100 * h.
Proof.
  intros Hh. destruct (sinc_low h ltac:(lra)) as [S1 S2]. replace (gp_gEq - gp_gEq * sin h / h) with (gp_gEq * (1 - sin h / h)) by (field; lra).
  assert (0 <= gp_gEq * (1 - sin h / h)) by (apply Rmult_le_pos; [unfold gp_gEq; lra|lra]). rewrite Rabs_right by lra.
  assert (gp_gEq * (1 - sin h / h) <= gp_gEq * (h * h / 2)) by (apply Rmult_le_compat_l; [unfold gp_gEq; lra|lra]). unfold gp_gEq in *. nra.
Qed.

(** The derivatives while the velocities and the height stay small. *)
Section Roll.
Variable h : R.
Hypothesis Hh : 0 < h <= 1 / 10.
Definition small (z e d : R) : Prop := Rabs d <= 2 * h /\ Rabs z <= 4 * h /\ Rabs e <= 10 * h.
Definition rate (k : R * R * R * R) : Prop := let '(l, z, e, d) := k in Rabs d <= h /\ Rabs z <= 2 * h /\ 4 * h <= e <= 5 * h.
Lemma small_rate z0 lon z e d : Rabs z0 <= 4 * h -> small z e d ->
  exists l' z' e' d', strapdownDynamics (eqst lon z e d) (V3 0 (gp_gEq * (1 - cos h)) (- (gp_gEq * sin h))) (V3 0 0 (gp_gEq * g_alt 0 z0)) h = Ret (eqst l' z' e' d') /\ rate (l', z', e', d').
Proof.
  intros Hz0 (Hd & Hz & He). assert (Z1 : Rabs z <= 1) by lra. assert (E1 : Rabs e <= 1) by lra.
  do 4 eexists. split; [apply eq_dyn; lra|]. pose proof (cor_bound z e Z1 E1) as Hc. pose proof (east_bound h Hh) as HE. pose proof (down_bound h Hh) as HD.
  pose proof (galt_bound z0 ltac:(lra)) as HG. set (c := cor z e) in *. pose proof (Rabs_pos c). pose proof (Rabs_pos d). pose proof (Rabs_pos e).
  assert (B1 : Rabs (c * d) <= 15 / 100000 * (2 * h)) by (rewrite Rabs_mult; apply Rmult_le_compat; assumption).
  assert (B2 : Rabs (c * e) <= 15 / 100000 * (10 * h)) by (rewrite Rabs_mult; apply Rmult_le_compat; assumption).
  assert (B3 : Rabs (gp_gEq * g_alt 0 z0 - gp_gEq) <= 4 / 1000000 * (4 * h)) by (eapply Rle_trans; [exact HG|]; apply Rmult_le_compat_l; lra).
  unfold rate. rewrite Rabs_Ropp. replace (- (gp_gEq * sin h) / h) with (- (gp_gEq * sin h / h)) by (unfold Rdiv; ring).
  apply Rabs_le_between in B1, B2, B3, HD. repeat split; try lra. apply Rabs_le. lra.
Qed.
Definition track (t z e d : R) : Prop := Rabs d <= t * h /\ Rabs z <= 2 * (t * h) /\ 4 * (t * h) <= e <= 5 * (t * h).
Lemma track_add t z e d l' z' e' d' c : 0 <= t -> 0 <= c -> track t z e d -> rate (l', z', e', d') -> track (t + c * h) (z + c * (h * z')) (e + c * (h * e')) (d + c * (h * d')).
Proof.
  intros Ht Hc (T1 & T2 & T3) (R1 & R2 & R3). assert (K : 0 <= c * h) by nra.
  assert (A : forall x b, Rabs x <= b -> Rabs (c * (h * x)) <= c * h * b) by (intros x b Hx; rewrite <- Rmult_assoc, Rabs_mult, (Rabs_right (c * h)) by lra; apply Rmult_le_compat_l; lra).
  pose proof (A _ _ R1) as A1. pose proof (A _ _ R2) as A2. unfold track. split; [|split].
  - eapply Rle_trans; [apply Rabs_triang|]. lra.
  - eapply Rle_trans; [apply Rabs_triang|]. lra.
  - split; rewrite Rmult_plus_distr_r.
    + assert (c * h * (4 * h) <= c * h * e') by (apply Rmult_le_compat_l; lra). lra.
    + assert (c * h * e' <= c * h * (5 * h)) by (apply Rmult_le_compat_l; lra). lra.
Qed.
Lemma track_small t z e d : 0 <= t <= 2 -> track t z e d -> small z e d.
Proof. intros Ht (T1 & T2 & T3). assert (0 <= t * h <= 2 * h) by nra. unfold small. repeat split; try lra. apply Rabs_le. lra. Qed.
Lemma eqst_add lon z e d k l' z' e' d' : s6add (eqst lon z e d) (s6scale k (s6scale h (eqst l' z' e' d'))) = eqst (lon + k * (h * l')) (z + k * (h * z')) (e + k * (h * e')) (d + k * (h * d')).
Proof. unfold s6add, s6scale, eqst, vadd, vscale. cbn. f_equal; apply v3_eq; ring. Qed.
Lemma eqst_add1 lon z e d l' z' e' d' : s6add (eqst lon z e d) (s6scale h (eqst l' z' e' d')) = eqst (lon + 1 * (h * l')) (z + 1 * (h * z')) (e + 1 * (h * e')) (d + 1 * (h * d')).
Proof. unfold s6add, s6scale, eqst, vadd, vscale. cbn. f_equal; apply v3_eq; ring. Qed.

Lemma roll_rk t lon z e d : 0 <= t <= 1 -> track t z e d ->
  exists l1 z1 e1 d1, rk4_step (eqst lon z e d) h (V3 0 (gp_gEq * (1 - cos h)) (- (gp_gEq * sin h))) (grav (eqst lon z e d)) = Ret (eqst l1 z1 e1 d1) /\ track (t + h) z1 e1 d1.
Proof.
  intros Ht Tr. rewrite eq_grav. assert (Hz0 : Rabs z <= 4 * h) by (apply (track_small t z e d); [lra|exact Tr]). unfold rk4_step.
  destruct (small_rate z lon z e d Hz0 (track_small t z e d ltac:(lra) Tr)) as (l1 & z1 & e1 & d1 & E1 & R1). rewrite E1. cbn [bind]. rewrite eqst_add.
  pose proof (track_add t z e d l1 z1 e1 d1 (/ 2) ltac:(lra) ltac:(lra) Tr R1) as T2.
  match goal with |- context [strapdownDynamics (eqst ?a ?b ?c ?d) _ _ _] => destruct (small_rate z a b c d Hz0 (track_small (t + / 2 * h) b c d ltac:(lra) T2)) as (l2 & z2 & e2 & d2 & E2 & R2) end. rewrite E2. cbn [bind]. rewrite eqst_add.
  pose proof (track_add t z e d l2 z2 e2 d2 (/ 2) ltac:(lra) ltac:(lra) Tr R2) as T3.
  match goal with |- context [strapdownDynamics (eqst ?a ?b ?c ?d) _ _ _] => destruct (small_rate z a b c d Hz0 (track_small (t + / 2 * h) b c d ltac:(lra) T3)) as (l3 & z3 & e3 & d3 & E3 & R3) end. rewrite E3. cbn [bind]. rewrite eqst_add1.
  pose proof (track_add t z e d l3 z3 e3 d3 1 ltac:(lra) ltac:(lra) Tr R3) as T4.
  match goal with |- context [strapdownDynamics (eqst ?a ?b ?c ?d) _ _ _] => destruct (small_rate z a b c d Hz0 (track_small (t + 1 * h) b c d ltac:(lra) T4)) as (l4 & z4 & e4 & d4 & E4 & R4) end. rewrite E4. cbn [bind]. rewrite !eqst_add.
  do 4 eexists. split; [reflexivity|].
  pose proof (track_add t z e d l1 z1 e1 d1 (1 / 6) ltac:(lra) ltac:(lra) Tr R1) as X1.
  pose proof (track_add (t + 1 / 6 * h) _ _ _ l2 z2 e2 d2 (1 / 3) ltac:(lra) ltac:(lra) X1 R2) as X2.
  pose proof (track_add (t + 1 / 6 * h + 1 / 3 * h) _ _ _ l3 z3 e3 d3 (1 / 3) ltac:(lra) ltac:(lra) X2 R3) as X3.
  pose proof (track_add (t + 1 / 6 * h + 1 / 3 * h + 1 / 3 * h) _ _ _ l4 z4 e4 d4 (1 / 6) ltac:(lra) ltac:(lra) X3 R4) as X4.
  replace (t + h) with (t + 1 / 6 * h + 1 / 3 * h + 1 / 3 * h + 1 / 6 * h) by field. exact X4.
Qed.
End Roll.

(** ** The run *)
Lemma roll_add a b : mmul (rolling a) (rolling b) = rolling (a + b).
Proof. unfold mmul, rolling. cbn. rewrite sin_plus, cos_plus. apply m3_eq; ring. Qed.
Lemma roll_update t h : 0 < h -> updateAttitude (rolling t) (V3 h 0 0) = Ret (true, rolling (t + h)).
Proof.
  intros Hh. rewrite updateAttitude_ok by (intros E; apply (f_equal vx) in E; cbn in E; lra).
  assert (En : norm (V3 h 0 0) = h) by (unfold norm, dot; cbn; rewrite !Rmult_0_r, !Rplus_0_r; apply sqrt_square; lra).
  rewrite En, <- roll_add. do 3 f_equal. replace (vscale (/ h) (V3 h 0 0)) with (V3 1 0 0) by (unfold vscale; cbn; apply v3_eq; field; lra).
  unfold axis_matrix, rolling. cbn. apply m3_eq; ring.
Qed.
Lemma roll_dvn t h : mvmul (rolling (t + h)) (vsub (roll_dv (t + h)) (roll_dv t)) = V3 0 (gp_gEq * (1 - cos h)) (- (gp_gEq * sin h)).
Proof.
  assert (Ec : cos h = cos (t + h) * cos t + sin (t + h) * sin t) by (rewrite <- cos_minus; f_equal; ring).
  assert (Es : sin h = sin (t + h) * cos t - cos (t + h) * sin t) by (rewrite <- sin_minus; f_equal; ring).
  rewrite Ec, Es. pose proof (sin2_cos2 (t + h)) as S. unfold Rsqr in S. unfold mvmul, rolling, roll_dv, vsub. cbn.
  set (s := sin (t + h)) in *. set (c := cos (t + h)) in *. assert (S' : s * s = 1 - c * c) by lra. apply v3_eq; [ring|ring [S']|ring].
Qed.
Lemma roll_run h : 0 < h <= 1 / 10 -> forall k i lon z e d, INR (i + k) * h <= 1 -> track h (INR i * h) z e d ->
  exists l1 z1 e1 d1, nav_run (rolling (INR i * h), eqst lon z e d) (map (roll_step h) (seq i k)) = Ret (rolling (INR (i + k) * h), eqst l1 z1 e1 d1) /\ track h (INR (i + k) * h) z1 e1 d1.
Proof.
  intros Hh. induction k as [|k IH]; intros i lon z e d HT Tr; cbn [seq map nav_run].
  - rewrite Nat.add_0_r. do 4 eexists. split; [reflexivity|exact Tr].
  - assert (Hi : 0 <= INR i * h <= 1). { split; [apply Rmult_le_pos; [apply pos_INR|lra]|]. eapply Rle_trans; [|exact HT]. apply Rmult_le_compat_r; [lra|]. apply le_INR. lia. }
    destruct (roll_rk h Hh (INR i * h) lon z e d Hi Tr) as (l1 & z1 & e1 & d1 & E1 & T1).
    assert (ES : INR (S i) * h = INR i * h + h) by (rewrite S_INR; ring). unfold roll_step at 1.
    rewrite (nav_call_ok _ _ _ _ _ (rolling (INR i * h + h)) (eqst l1 z1 e1 d1)); [cbn [bind]|..].
    + rewrite <- ES in T1 |- *. destruct (IH (S i) l1 z1 e1 d1) as (l2 & z2 & e2 & d2 & E2 & T2); [|exact T1|].
      * replace (S i + k)%nat with (i + S k)%nat by lia. exact HT.
      * replace (S i + k)%nat with (i + S k)%nat in * by lia. exists l2, z2, e2, d2. split; assumption.
    + rewrite <- roll_update by lra. f_equal. rewrite ES. unfold vsub, roll_angle. cbn. apply v3_eq; ring.
    + rewrite ES, roll_dvn. exact E1.
Qed.
Lemma rolling_motion T : motion T rolling (fun _ => at_rest) roll_force roll_rate.
Proof.
  intros t _. split; [|split].
  - pose proof (sin2_cos2 t) as S. unfold Rsqr, rolling in *. revert S. generalize (sin t) (cos t). intros s c S.
    assert (E : s * s = 1 - c * c) by lra. split; intros [u1 u2 u3] [v1 v2 v3].
    + unfold dot, mvmul. cbn [vx vy vz m11 m12 m13 m21 m22 m23 m31 m32 m33]. ring [E].
    + unfold cross, mvmul. cbn [vx vy vz m11 m12 m13 m21 m22 m23 m31 m32 m33]. apply v3_eq; cbn [vx vy vz]; first [ring|ring [E]].
  - exists (skw (V3 1 0 0)). split; [intros []; unfold mvmul, cross, skw, roll_rate; cbn; apply v3_eq; ring|].
    unfold mat_derive, vec_derive, row1, row2, row3, rolling, mmul, skw; cbn. repeat match goal with |- _ /\ _ => split end; auto_derive; trivial; ring.
  - exists (V3 0 0 (gp_gEq * g_alt 0 0)). exists (V3 0 0 0), (V3 0 0 0). split; [rewrite gravityNed_ok; do 2 f_equal; exact (eq_grav 0 0 0 0)|]. split.
    + replace (mvmul (rolling t) (roll_force t)) with (V3 0 0 (- gp_gEq)).
      * change at_rest with (eqst 0 0 0 0). rewrite eq_dyn by (try (rewrite Rabs_R0); lra). unfold eqst. rewrite g_alt_0. f_equal. f_equal; apply v3_eq; unfold Rdiv; try ring. field.
      * pose proof (sin2_cos2 t) as S. unfold Rsqr in S. unfold mvmul, rolling, roll_force. cbn. set (s := sin t) in *. set (c := cos t) in *. assert (S' : s * s = 1 - c * c) by lra.
        apply v3_eq; [ring|ring|ring [S']].
    + unfold vec_derive, at_rest, v3zero. cbn. repeat match goal with |- _ /\ _ => split end; auto_derive; trivial.
Qed.
Lemma roll_integrals t : vec_derive roll_dv t (roll_force t) /\ vec_derive roll_angle t (roll_rate t).
Proof. unfold vec_derive, roll_dv, roll_force, roll_angle, roll_rate. cbn. repeat match goal with |- _ /\ _ => split end; auto_derive; trivial; ring. Qed.
Theorem first_order_only : forall N, (10 <= N)%nat -> exists C1 p v, nav_run (rolling 0, at_rest) (map (roll_step (1 / INR N)) (seq 0 N)) = Ret (C1, (p, v)) /\
  C1 = rolling 1 /\ 4 / INR N <= vy v <= 5 / INR N.
Proof.
  intros N HN. assert (N10 : 10 <= INR N) by (pose proof (le_INR 10 N HN) as Q; rewrite (INR_IZR_INZ 10) in Q; exact Q).
  set (h := 1 / INR N). assert (Hh : 0 < h <= 1 / 10).
  { unfold h. split; [apply Rdiv_lt_0_compat; lra|]. apply Rmult_le_reg_r with (INR N); [lra|]. unfold Rdiv. rewrite Rmult_assoc, Rinv_l by lra. lra. }
  assert (E : INR N * h = 1) by (unfold h; field; lra).
  destruct (roll_run h Hh N 0 0 0 0 0) as (l & z & e & d & R1 & T1).
  - cbn [Nat.add]. lra.
  - unfold track. cbn [INR]. rewrite !Rmult_0_l, Rabs_R0. lra.
  - cbn [Nat.add INR] in R1, T1. rewrite E in R1, T1. rewrite Rmult_0_l in R1. change (eqst 0 0 0 0) with at_rest in R1. exists (rolling 1), (V3 0 l z), (V3 0 e d). split; [exact R1|].
    split; [reflexivity|]. cbn. destruct T1 as (_ & _ & T1). unfold h in T1. unfold Rdiv in *. lra.
Qed.

(** ** The code *)
Fixpoint steps (t : Z) (l : list sample) : list step :=
  match l with
  | [] => []
  | m :: l' => (s_dV m, s_dTh m, IZR (s_t m - t) / 1000000) :: steps (s_t m) l'
  end.
Lemma run_steps l : forall n A y A1 y1, RB2N n = Some A -> pv n = Some y -> times_fit (tov n) l ->
  nav_run (A, y) (steps (tov n) l) = Ret (A1, y1) -> exists n', run (Some n) l = Ret (Some n') /\ RB2N n' = Some A1 /\ pv n' = Some y1.
Proof.
  induction l as [|m l IH]; intros n A y A1 y1 HA Hp Hf HR; cbn [steps nav_run run times_fit] in *.
  - injection HR as <- <-. exists n. repeat split; assumption.
  - destruct Hf as [Hf Hf']. destruct (nav_call (A, y) (s_dV m) (s_dTh m) (IZR (s_t m - tov n) / 1000000)) as [[A' y']| | | |] eqn:E; try discriminate. cbn [bind] in HR.
    destruct n as [a b t0 d]. cbn [RB2N pv tov] in *. subst a b.
    apply (call_of_integrate A y t0 d) in E; [|exact Hf]. rewrite E. cbn [bind snd].
    exact (IH (NavS (Some A') (Some y') (s_t m) (IZR (s_t m - t0) / 1000000)) A' y' A1 y1 eq_refl eq_refl Hf' HR).
Qed.
Lemma roll_steps k : forall i, steps (Z.of_nat i * 10000) (map roll_sample (seq i k)) = map (roll_step (1 / 100)) (seq i k).
Proof.
  induction k as [|k IH]; intros i; [reflexivity|]. cbn [seq map steps].
  assert (E : IZR (s_t (roll_sample i) - Z.of_nat i * 10000) / 1000000 = 1 / 100).
  { unfold roll_sample, s_t. cbn [snd]. replace (Z.of_nat (S i) * 10000 - Z.of_nat i * 10000)%Z with 10000%Z by lia. field. }
  rewrite E. change (s_t (roll_sample i)) with (Z.of_nat (S i) * 10000)%Z. rewrite IH. reflexivity.
Qed.
Lemma roll_fit k : forall i, times_fit (Z.of_nat i * 10000) (map roll_sample (seq i k)).
Proof. induction k as [|k IH]; intros i; cbn [seq map times_fit]; [exact I|]. split; [unfold roll_sample, s_t; cbn [snd]; lia|exact (IH (S i))]. Qed.
Theorem rolling_drifts d : exists n' C1 p v, run (Some (NavS (Some m3id) (Some at_rest) 0 d)) (map roll_sample (seq 0 100)) = Ret (Some n') /\
  RB2N n' = Some C1 /\ pv n' = Some (p, v) /\ C1 = rolling 1 /\ 4 / 100 <= vy v <= 5 / 100.
Proof.
  destruct (first_order_only 100 ltac:(lia)) as (C1 & p & v & E & EC & Hv). assert (E100 : INR 100 = 100) by (rewrite INR_IZR_INZ; reflexivity). rewrite E100 in *.
  replace (rolling 0) with m3id in E by (unfold rolling, m3id; rewrite cos_0, sin_0, Ropp_0; reflexivity).
  destruct (run_steps (map roll_sample (seq 0 100)) (NavS (Some m3id) (Some at_rest) 0 d) m3id at_rest C1 (p, v) eq_refl eq_refl) as (n' & R1 & R2 & R3).
  - exact (roll_fit 100 0).
  - cbn [tov]. change 0%Z with (Z.of_nat 0 * 10000)%Z. rewrite roll_steps. exact E.
  - exists n', C1, p, v. repeat split; try assumption; apply Hv.
Qed.
