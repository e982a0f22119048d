(** Proofs for coarse alignment in rounded arithmetic. *)
From Coq Require Import Reals ZArith Lra Lia Psatz.
From Flocq Require Import Core.
From Verif Require Import Base BaseVec SpecRot SpecCoarse ModelCoarse ModelDate ModelStrapdownFloat ModelCoarseFloat SpecFloatOps SpecEulerFloat ProofVec
  ProofCoarse ProofTurn ProofStrapdownFloat ProofStrapdownFloat2 ProofGravityFloat ProofEulerFloat.
Open Scope R_scope.

(** ** Errors relative to a scale, in units of [U] *)
Section A.
Variable U : R. Hypothesis HU : u64 <= U <= 1 / 1000000000000.
Variable F : FloatOps. Hypothesis HF : float_ok F.
Local Notation r := (frnd F).
Definition ab (x y k m : R) : Prop := Rabs (x - y) <= k * U * m /\ Rabs y <= m.
Local Lemma U0 : 0 < U. Proof. pose proof u64_tight. lra. Qed.
Lemma eta80 : eta64 <= / 100000000000000000000 * / 100000000000000000000 * / 100000000000000000000 * / 100000000000000000000.
Proof.
  unfold eta64. apply Rle_trans with (bpow radix2 (-268)); [apply bpow_le; lia|].
  replace (-268)%Z with (-67 + (-67 + (-67 + -67)))%Z by lia. rewrite !bpow_plus.
  assert (H : bpow radix2 (-67) <= / 100000000000000000000).
  { change (bpow radix2 (-67)) with (/ 147573952589676412928). apply Rinv_le_contravar; lra. }
  pose proof (bpow_ge_0 radix2 (-67)) as P. set (b := bpow radix2 (-67)) in *. set (c := / 100000000000000000000) in *.
  assert (b * b <= c * c) by nra. assert (0 <= b * b) by nra. nra.
Qed.
Lemma ab_m x y k m : ab x y k m -> 0 <= m. Proof. intros [_ H]. pose proof (Rabs_pos y). lra. Qed.
Lemma ab_le x y k m k' : ab x y k m -> k <= k' -> ab x y k' m.
Proof. intros H K. pose proof (ab_m _ _ _ _ H) as M. destruct H as [H1 H2]. split; [|exact H2]. eapply Rle_trans; [exact H1|]. apply Rmult_le_compat_r; [exact M|]. apply Rmult_le_compat_r; [apply Rlt_le, U0|exact K]. Qed.
Lemma ab_exact y m : Rabs y <= m -> ab y y 0 m.
Proof. intros H. split; [|exact H]. rewrite Rminus_eq_0, Rabs_R0. lra. Qed.
Lemma ab_opp x y k m : ab x y k m -> ab (- x) (- y) k m.
Proof. intros [H1 H2]. split; [|now rewrite Rabs_Ropp]. replace (- x - - y) with (- (x - y)) by ring. now rewrite Rabs_Ropp. Qed.
Lemma ab_mul x y k m x' y' k' m' : ab x y k m -> ab x' y' k' m' -> 0 <= k <= 1000 -> 0 <= k' <= 1000 -> ab (x * x') (y * y') (k + k' + / 1000000) (m * m').
Proof.
  intros [H1 H2] [H1' H2'] K K'. pose proof U0 as U0. pose proof (Rabs_pos y) as Y. pose proof (Rabs_pos y') as Y'.
  split; [|rewrite Rabs_mult; apply Rmult_le_compat; assumption].
  replace (x * x' - y * y') with ((x - y) * (x' - y') + (x - y) * y' + y * (x' - y')) by ring.
  eapply Rle_trans; [apply Rabs_triang|]. eapply Rle_trans; [apply Rplus_le_compat_r, Rabs_triang|]. rewrite !Rabs_mult.
  assert (M : 0 <= m) by lra. assert (M' : 0 <= m') by lra. assert (MM : 0 <= m * m') by nra.
  assert (Q1 : Rabs (x - y) * Rabs (x' - y') <= (k * U * m) * (k' * U * m')) by (apply Rmult_le_compat; try apply Rabs_pos; assumption).
  assert (Q2 : Rabs (x - y) * Rabs y' <= (k * U * m) * m') by (apply Rmult_le_compat; try apply Rabs_pos; assumption).
  assert (Q3 : Rabs y * Rabs (x' - y') <= m * (k' * U * m')) by (apply Rmult_le_compat; try apply Rabs_pos; assumption).
  assert (Q4 : (k * U) * (k' * U) <= / 1000000 * U).
  { replace ((k * U) * (k' * U)) with ((k * k' * U) * U) by ring. apply Rmult_le_compat_r; [lra|]. assert (k * k' <= 1000000) by nra. nra. }
  replace ((k * U * m) * (k' * U * m')) with ((k * U) * (k' * U) * (m * m')) in Q1 by ring.
  assert (Q5 : (k * U) * (k' * U) * (m * m') <= / 1000000 * U * (m * m')) by (apply Rmult_le_compat_r; assumption).
  replace ((k * U * m) * m') with (k * U * (m * m')) in Q2 by ring. replace (m * (k' * U * m')) with (k' * U * (m * m')) in Q3 by ring.
  rewrite !Rmult_plus_distr_r. lra.
Qed.
Definition small_scale : R := / 100000000000000000000 * / 100000000000000000000.
Lemma ab_rnd x y k m : ab x y k m -> 0 <= k <= 1000 -> small_scale <= m -> ab (r x) y (k + 1 + / 1000000) m.
Proof.
  intros [H1 H2] K M. pose proof U0 as U0. split; [|exact H2]. pose proof (proj1 HF x) as E. pose proof eta80 as E8. pose proof u64_tight as T. pose proof (u64_val) as V.
  replace (r x - y) with ((r x - x) + (x - y)) by ring. eapply Rle_trans; [apply Rabs_triang|].
  assert (X : Rabs x <= (1 + / 100000000) * m).
  { replace x with ((x - y) + y) by ring. eapply Rle_trans; [apply Rabs_triang|]. assert (k * U <= / 100000000) by nra.
    assert (k * U * m <= / 100000000 * m) by (apply Rmult_le_compat_r; [unfold small_scale in M; lra|assumption]). lra. }
  assert (M0 : 0 < m) by (unfold small_scale in M; lra).
  assert (Q1 : u64 * Rabs x <= U * ((1 + / 100000000) * m)) by (apply Rmult_le_compat; try apply Rabs_pos; lra).
  assert (Q2 : eta64 <= / 100000000 * (U * m)).
  { eapply Rle_trans; [exact E8|]. apply Rle_trans with (/ 100000000 * (/ 10000000000000000 * small_scale)); [unfold small_scale; lra|].
    apply Rmult_le_compat_l; [lra|]. apply Rmult_le_compat; unfold small_scale in *; lra. }
  replace ((k + 1 + / 1000000) * U * m) with (k * U * m + U * m + / 1000000 * (U * m)) by ring. assert (0 <= U * m) by nra. lra.
Qed.
Lemma ab_sub x y k m x' k' : ab x y k m -> ab x' 0 k' m -> ab (x - x') y (k + k') m.
Proof.
  intros [H1 H2] [H1' _]. split; [|exact H2]. replace (x - x' - y) with ((x - y) - (x' - 0)) by ring.
  eapply Rle_trans; [apply Rabs_triang|]. rewrite Rabs_Ropp. rewrite !Rmult_plus_distr_r. lra.
Qed.
Lemma ab_bus x k m x' y' k' : ab x 0 k m -> ab x' y' k' m -> ab (x - x') (- y') (k + k') m.
Proof.
  intros [H1 _] [H1' H2]. split; [|now rewrite Rabs_Ropp]. replace (x - x' - - y') with ((x - 0) - (x' - y')) by ring.
  eapply Rle_trans; [apply Rabs_triang|]. rewrite Rabs_Ropp. rewrite !Rmult_plus_distr_r. lra.
Qed.
Lemma ab_zero m : small_scale <= m -> ab (r 0) 0 (/ 1000000) m.
Proof.
  intros M. pose proof (proj1 HF 0) as E. pose proof eta80 as E8. rewrite Rabs_R0, Rmult_0_r, Rplus_0_l, Rminus_0_r in E. pose proof U0 as U0. pose proof u64_val as V. unfold small_scale in M.
  split; [|rewrite Rabs_R0; lra]. rewrite Rminus_0_r. eapply Rle_trans; [exact E|]. eapply Rle_trans; [exact E8|].
  apply Rle_trans with (/ 1000000 * / 10000000000000000 * (/ 100000000000000000000 * / 100000000000000000000)); [lra|].
  apply Rmult_le_compat; try lra.
Qed.
Lemma ab_inv x y k : ab x y k (Rabs y) -> y <> 0 -> 0 <= k <= 100 -> x <> 0 /\ ab (1 / x) (1 / y) (k + / 1000000) (Rabs (1 / y)).
Proof.
  intros [H1 _] Y K. pose proof U0 as U0. pose proof (Rabs_pos_lt y Y) as YP.
  assert (KU : k * U <= / 10000000000) by nra.
  assert (XL : (1 - / 10000000000) * Rabs y <= Rabs x).
  { replace y with (x - (x - y)) at 1 by ring. pose proof (Rabs_triang x (- (x - y))) as T. rewrite Rabs_Ropp in T.
    replace (x - (x - y)) with (x + - (x - y)) by ring.
    assert (k * U * Rabs y <= / 10000000000 * Rabs y) by (apply Rmult_le_compat_r; lra).
    pose proof (Rabs_triang (x - y) (- x)) as T2. replace (x - y + - x) with (- y) in T2 by ring. rewrite !Rabs_Ropp in T2.
    replace (x + - (x - y)) with y by ring. lra. }
  assert (X : x <> 0) by (intros Z; rewrite Z, Rabs_R0 in XL; nra). split; [exact X|]. split; [|apply Rle_refl].
  replace (1 / x - 1 / y) with (- ((x - y) * / x) * (1 / y)) by (field; split; assumption). rewrite Rabs_mult, Rabs_Ropp, Rabs_mult, Rabs_inv.
  apply Rmult_le_compat_r; [apply Rabs_pos|]. pose proof (Rabs_pos_lt x X) as XP.
  apply (Rmult_le_reg_r (Rabs x)); [exact XP|]. replace (Rabs (x - y) * / Rabs x * Rabs x) with (Rabs (x - y)) by (field; lra).
  eapply Rle_trans; [exact H1|]. assert (0 <= U * Rabs y) by nra.
  apply Rle_trans with ((k + / 1000000) * U * ((1 - / 10000000000) * Rabs y)); [|apply Rmult_le_compat_l; [nra|exact XL]].
  replace ((k + / 1000000) * U * ((1 - / 10000000000) * Rabs y)) with ((k + / 1000000) * (1 - / 10000000000) * (U * Rabs y)) by ring.
  replace (k * U * Rabs y) with (k * (U * Rabs y)) by ring. apply Rmult_le_compat_r; [assumption|]. nra.
Qed.

(** ** The inverse *)
Variables lat wE g : R. Hypothesis HC : U = u64 / cos lat. Hypothesis Hc : 1 / 1000 <= cos lat.
Hypothesis Hg : 1 <= g <= 100. Hypothesis Hw : 1 / 1000000 <= wE <= 1.
Local Notation c := (cos lat). Local Notation s := (sin lat).
Local Lemma UC : U * c = u64. Proof. rewrite HC. field. lra. Qed.
Local Lemma c1 : c <= 1. Proof. pose proof (COS_bound lat). lra. Qed.
Local Lemma cosf : ab (fcos F lat) c 2 c.
Proof. split; [|rewrite Rabs_right; lra]. rewrite Rmult_assoc, UC. exact (proj2 (proj2 (proj2 HF)) lat). Qed.
Local Lemma sinf : ab (fsin F lat) s 2 1.
Proof. split; [|apply Rabs_le; pose proof (SIN_bound lat); lra]. pose proof (proj1 (proj2 (proj2 HF)) lat). lra. Qed.
Let b' := r (wE * fcos F lat). Let d' := r (- wE * fsin F lat). Let k' := r (r (g * wE) * fcos F lat).
Let wc := wE * c. Let gwc := g * wE * c.
Local Lemma wc_b : / 1000000000 <= wc <= 1. Proof. pose proof c1. unfold wc. nra. Qed.
Local Lemma gwc_b : / 1000000000 <= gwc <= 100. Proof. pose proof wc_b. unfold gwc. replace (g * wE * c) with (g * wc) by (unfold wc; ring). nra. Qed.
Ltac big := unfold small_scale; pose proof wc_b; pose proof gwc_b; pose proof c1; nra.
Local Lemma b_ab : ab b' wc (31 / 10) wc.
Proof.
  pose proof (ab_mul _ _ _ _ _ _ _ _ (ab_exact wE wE ltac:(rewrite Rabs_right; lra)) cosf ltac:(lra) ltac:(lra)) as H.
  eapply ab_le; [refine (ab_rnd _ _ _ _ H ltac:(lra) _)|lra]. fold wc. big.
Qed.
Local Lemma d_ab : ab d' (- wE * s) (31 / 10) wE.
Proof.
  pose proof (ab_mul _ _ _ _ _ _ _ _ (ab_exact (- wE) wE ltac:(rewrite Rabs_left; lra)) sinf ltac:(lra) ltac:(lra)) as H. rewrite Rmult_1_r in H.
  eapply ab_le; [refine (ab_rnd _ _ _ _ H ltac:(lra) _)|lra]. big.
Qed.
Local Lemma k_ab : ab k' gwc (41 / 10) gwc.
Proof.
  assert (G : 0 < g * wE) by nra.
  pose proof (ab_rnd _ _ _ _ (ab_exact (g * wE) (g * wE) ltac:(rewrite Rabs_right; lra)) ltac:(lra) ltac:(unfold small_scale; nra)) as H0.
  pose proof (ab_mul _ _ _ _ _ _ _ _ H0 cosf ltac:(lra) ltac:(lra)) as H.
  eapply ab_le; [refine (ab_rnd _ _ _ _ H ltac:(lra) _)|lra]. fold gwc. big.
Qed.
Local Lemma g_ab : ab (- g) (- g) 0 g. Proof. apply ab_exact. rewrite Rabs_left; lra. Qed.
Let cof p q p' q' := r (r (p * q) - r (p' * q')).
Local Lemma cof_l p q y k m z z' : ab (p * q) y k m -> 0 <= k <= 100 -> z * z' = 0 -> small_scale <= m -> ab (cof p q z z') y (k + 201 / 100) m.
Proof.
  intros H K Z M. unfold cof. rewrite Z. pose proof (ab_rnd _ _ _ _ H ltac:(lra) M) as H1.
  pose proof (ab_sub _ _ _ _ _ _ H1 (ab_zero m M)) as H2. eapply ab_le; [refine (ab_rnd _ _ _ _ H2 ltac:(lra) M)|lra].
Qed.
Local Lemma cof_r p q y k m z z' : ab (p * q) y k m -> 0 <= k <= 100 -> z * z' = 0 -> small_scale <= m -> ab (cof z z' p q) (- y) (k + 201 / 100) m.
Proof.
  intros H K Z M. unfold cof. rewrite Z. pose proof (ab_rnd _ _ _ _ H ltac:(lra) M) as H1.
  pose proof (ab_bus _ _ _ _ _ _ (ab_zero m M) H1) as H2. eapply ab_le; [refine (ab_rnd _ _ _ _ H2 ltac:(lra) M)|lra].
Qed.
Local Lemma rnd_abs x : Rabs (r x) <= 2 * Rabs x + eta64.
Proof.
  pose proof (proj1 HF x) as E. pose proof u64_tight. pose proof (Rabs_pos x). replace (r x) with ((r x - x) + x) by ring.
  eapply Rle_trans; [apply Rabs_triang|]. nra.
Qed.
Local Lemma cof_z p q p' q' : p * q = 0 -> p' * q' = 0 -> Rabs (cof p q p' q') <= 5 * eta64.
Proof.
  intros Z Z'. unfold cof. rewrite Z, Z'. eapply Rle_trans; [apply rnd_abs|]. pose proof (rnd_abs 0) as E. rewrite Rabs_R0 in E.
  pose proof (Rabs_triang (r 0) (- r 0)) as T. rewrite Rabs_Ropp in T. replace (r 0 + - r 0) with (r 0 - r 0) in T by ring. lra.
Qed.
Let c00 := cof 0 0 d' k'. Let c10 := cof k' (- g) 0 0. Let c20 := cof 0 d' (- g) 0.
Let c01 := cof d' 0 b' 0. Let c11 := cof 0 0 0 (- g). Let c21 := cof (- g) b' 0 d'.
Let c02 := cof b' k' 0 0. Let c12 := cof 0 0 k' 0. Let c22 := cof 0 0 0 b'.
Local Lemma c00_ab : ab c00 (wE * s * gwc) (93 / 10) (wE * gwc).
Proof.
  pose proof (ab_mul _ _ _ _ _ _ _ _ d_ab k_ab ltac:(lra) ltac:(lra)) as H.
  replace (wE * s * gwc) with (- (- wE * s * gwc)) by ring.
  eapply ab_le; [refine (cof_r _ _ _ _ _ 0 0 H ltac:(lra) ltac:(ring) _)|lra]. big.
Qed.
Local Lemma c10_ab : ab c10 (- (gwc * g)) (62 / 10) (gwc * g).
Proof.
  pose proof (ab_mul _ _ _ _ _ _ _ _ k_ab g_ab ltac:(lra) ltac:(lra)) as H.
  replace (- (gwc * g)) with (gwc * - g) by ring.
  eapply ab_le; [refine (cof_l _ _ _ _ _ 0 0 H ltac:(lra) ltac:(ring) _)|lra]. big.
Qed.
Local Lemma c21_ab : ab c21 (- (g * wc)) (52 / 10) (g * wc).
Proof.
  pose proof (ab_mul _ _ _ _ _ _ _ _ g_ab b_ab ltac:(lra) ltac:(lra)) as H.
  replace (- (g * wc)) with (- g * wc) by ring.
  eapply ab_le; [refine (cof_l _ _ _ _ _ 0 d' H ltac:(lra) ltac:(ring) _)|lra]. big.
Qed.
Local Lemma c02_ab : ab c02 (wc * gwc) (93 / 10) (wc * gwc).
Proof.
  pose proof (ab_mul _ _ _ _ _ _ _ _ b_ab k_ab ltac:(lra) ltac:(lra)) as H.
  eapply ab_le; [refine (cof_l _ _ _ _ _ 0 0 H ltac:(lra) ltac:(ring) _)|lra]. big.
Qed.
Let D := gwc * g * wc.
Local Lemma D_b : / 1000000000000000000 <= D <= 10000.
Proof. pose proof wc_b. pose proof gwc_b. unfold D. assert (/ 1000000000 <= gwc * g <= 10000) by nra. nra. Qed.
Let det' := fdot F (V3 c00 c10 c20) (V3 0 b' 0).
Local Lemma det_ab : ab det' (- D) (134 / 10) D.
Proof.
  pose proof D_b as DB. pose proof (ab_mul _ _ _ _ _ _ _ _ c10_ab b_ab ltac:(lra) ltac:(lra)) as [H1 H2]. fold D in H1, H2.
  replace (- (gwc * g) * wc) with (- D) in H1 by (unfold D; ring).
  split; [|rewrite Rabs_Ropp, Rabs_right; lra].
  pose proof (proj1 (proj2 HF) (V3 c00 c10 c20) (V3 0 b' 0)) as E. fold det' in E. unfold dot in E. cbn [vx vy vz] in E.
  rewrite !Rmult_0_r, Rabs_R0, !Rplus_0_l, !Rplus_0_r in E. pose proof eta80 as E8. pose proof U0 as U0. pose proof u64_val as V.
  replace (det' - - D) with ((det' - c10 * b') + (c10 * b' - - D)) by ring. eapply Rle_trans; [apply Rabs_triang|].
  assert (X : Rabs (c10 * b') <= (1 + / 100000000) * D).
  { replace (c10 * b') with ((c10 * b' - - D) + - D) by ring. eapply Rle_trans; [apply Rabs_triang|]. rewrite Rabs_Ropp, (Rabs_right D) by lra.
    assert ((62 / 10 + 31 / 10 + / 1000000) * U * D <= / 100000000 * D) by (apply Rmult_le_compat_r; lra). lra. }
  assert (Q : 4 * u64 * Rabs (c10 * b') <= 4 * U * ((1 + / 100000000) * D)) by (apply Rmult_le_compat; try apply Rabs_pos; lra).
  assert (Q2 : 8 * eta64 <= / 1000000 * (U * D)).
  { apply Rle_trans with (/ 1000000 * (/ 10000000000000000 * / 1000000000000000000)); [lra|]. apply Rmult_le_compat_l; [lra|]. apply Rmult_le_compat; lra. }
  assert (0 <= U * D) by nra. replace (4 * U * ((1 + / 100000000) * D)) with (4 * (1 + / 100000000) * (U * D)) in Q by ring.
  replace ((62 / 10 + 31 / 10 + / 1000000) * U * D) with ((62 / 10 + 31 / 10 + / 1000000) * (U * D)) in H1 by ring.
  replace (134 / 10 * U * D) with (134 / 10 * (U * D)) by ring. lra.
Qed.
Let i' := r (1 / det').
Local Lemma inv_ab : det' <> 0 /\ ab i' (- / D) (145 / 10) (/ D).
Proof.
  pose proof D_b as DB. pose proof det_ab as H. assert (A : Rabs (- D) = D) by (rewrite Rabs_Ropp, Rabs_right; lra).
  rewrite <- A in H at 2. destruct (ab_inv _ _ _ H ltac:(lra) ltac:(lra)) as [N H1]. split; [exact N|].
  assert (E : 1 / - D = - / D) by (field; lra). rewrite E, Rabs_Ropp, Rabs_right in H1 by (apply Rle_ge, Rlt_le, Rinv_0_lt_compat; lra).
  eapply ab_le; [refine (ab_rnd _ _ _ _ H1 ltac:(lra) _)|lra].
  apply Rle_trans with (/ 10000); [unfold small_scale; lra|]. apply Rinv_le_contravar; lra.
Qed.
Local Lemma i_abs : Rabs i' <= 2000000000000000000.
Proof.
  destruct inv_ab as [_ [H1 H2]]. pose proof D_b as DB. replace i' with ((i' - - / D) + - / D) by ring. eapply Rle_trans; [apply Rabs_triang|].
  assert (I : 0 < / D <= 1000000000000000000). { split; [apply Rinv_0_lt_compat; lra|]. replace 1000000000000000000 with (/ / 1000000000000000000) by (apply Rinv_inv). apply Rinv_le_contravar; lra. }
  assert (145 / 10 * U * / D <= / 10 * / D) by (apply Rmult_le_compat_r; lra). lra.
Qed.
Local Lemma entry x y k m : ab x y k m -> 0 <= k <= 100 -> small_scale <= m * / D -> ab (r (x * i')) (y * - / D) (k + 1551 / 100) (m * / D).
Proof.
  intros H K M. pose proof (ab_mul _ _ _ _ _ _ _ _ H (proj2 inv_ab) ltac:(lra) ltac:(lra)) as H1.
  eapply ab_le; [refine (ab_rnd _ _ _ _ H1 ltac:(lra) M)|lra].
Qed.
Definition zt (x : R) : Prop := Rabs x <= / 100000000000000000000 * / 100000000000000000000 * / 1000000000000000.
Local Lemma entry_z x : Rabs x <= 5 * eta64 -> zt (r (x * i')).
Proof.
  intros H. unfold zt. eapply Rle_trans; [apply rnd_abs|]. rewrite Rabs_mult. pose proof i_abs as I. pose proof eta80 as E8.
  pose proof eta_pos as E0. assert (Rabs x * Rabs i' <= 5 * eta64 * 2000000000000000000) by (apply Rmult_le_compat; try apply Rabs_pos; assumption). lra.
Qed.
Local Lemma inverse_f : exists i11 i12 i13 i21 i22 i23 i31 i32 i33,
  minvc_f F (M3 0 0 (- g) b' 0 d' 0 k' 0) = Ret (M3 i11 i12 i13 i21 i22 i23 i31 i32 i33) /\
  ab i11 (- (s / (g * c))) 25 (/ (g * c)) /\ ab i12 (/ (wE * c)) 22 (/ (wE * c)) /\ zt i13 /\
  zt i21 /\ zt i22 /\ ab i23 (/ (g * wE * c)) 21 (/ (g * wE * c)) /\ ab i31 (- / g) 25 (/ g) /\ zt i32 /\ zt i33.
Proof.
  assert (E : minvc_f F (M3 0 0 (- g) b' 0 d' 0 k' 0) = (i0 <- Rdivc 1 det' ;;
    Ret (M3 (r (c00 * r i0)) (r (c10 * r i0)) (r (c20 * r i0)) (r (c01 * r i0)) (r (c11 * r i0)) (r (c21 * r i0)) (r (c02 * r i0)) (r (c12 * r i0)) (r (c22 * r i0)))))
    by reflexivity. rewrite E. clear E.
  destruct inv_ab as [N _]. unfold Rdivc. destruct (Req_EM_T det' 0) as [Z|_]; [contradiction|]. cbn [bind]. fold i'.
  pose proof wc_b as WB. pose proof gwc_b as GB. pose proof D_b as DB. pose proof c1 as C1.
  assert (NZ : g <> 0 /\ wE <> 0 /\ c <> 0) by (repeat split; lra). destruct NZ as (N1 & N2 & N3).
  assert (Q : forall a, / 1000000000 <= a -> small_scale <= a * / D).
  { intros a A. apply Rle_trans with (/ 1000000000 * / 10000); [unfold small_scale; lra|]. apply Rmult_le_compat; try lra. apply Rinv_le_contravar; lra. }
  eexists _, _, _, _, _, _, _, _, _. split; [reflexivity|].
  split; [|split; [|split; [|split; [|split; [|split; [|split; [|split]]]]]]].
  - replace (- (s / (g * c))) with (wE * s * gwc * - / D) by (unfold D, gwc, wc; field; auto). replace (/ (g * c)) with (wE * gwc * / D) by (unfold D, gwc, wc; field; auto).
    eapply ab_le; [refine (entry _ _ _ _ c00_ab ltac:(lra) _)|lra].
    replace (wE * gwc * / D) with (/ (g * c)) by (unfold D, gwc, wc; field; auto). apply Rle_trans with (/ 100); [unfold small_scale; lra|]. apply Rinv_le_contravar; nra.
  - replace (/ (wE * c)) with (- (gwc * g) * - / D) at 1 by (unfold D, gwc, wc; field; auto). replace (/ (wE * c)) with (gwc * g * / D) by (unfold D, gwc, wc; field; auto).
    eapply ab_le; [refine (entry _ _ _ _ c10_ab ltac:(lra) _)|lra]. apply Q. nra.
  - apply entry_z, cof_z; ring.
  - apply entry_z, cof_z; ring.
  - apply entry_z, cof_z; ring.
  - replace (/ (g * wE * c)) with (- (g * wc) * - / D) at 1 by (unfold D, gwc, wc; field; auto). replace (/ (g * wE * c)) with (g * wc * / D) by (unfold D, gwc, wc; field; auto).
    eapply ab_le; [refine (entry _ _ _ _ c21_ab ltac:(lra) _)|lra]. apply Q. nra.
  - replace (- / g) with (wc * gwc * - / D) by (unfold D, gwc, wc; field; auto). replace (/ g) with (wc * gwc * / D) by (unfold D, gwc, wc; field; auto).
    eapply ab_le; [refine (entry _ _ _ _ c02_ab ltac:(lra) _)|lra].
    replace (wc * gwc * / D) with (/ g) by (unfold D, gwc, wc; field; auto). apply Rle_trans with (/ 100); [unfold small_scale; lra|]. apply Rinv_le_contravar; lra.
  - apply entry_z, cof_z; ring.
  - apply entry_z, cof_z; ring.
Qed.

(** ** The product *)
Variables a w : vec3. Hypothesis HA : norm a <= 2 * g. Hypothesis HW : norm w <= 2 * wE.
Local Lemma comp_le v m : norm v <= m -> Rabs (vx v) <= m /\ Rabs (vy v) <= m /\ Rabs (vz v) <= m.
Proof.
  intros H.
  assert (Q : forall t, t * t <= dot v v -> Rabs t <= m).
  { intros t T. apply Rle_trans with (norm v); [|exact H]. unfold norm. rewrite <- sqrt_Rsqr_abs. apply sqrt_le_1_alt. exact T. }
  assert (DW : dot v v = vx v * vx v + vy v * vy v + vz v * vz v) by reflexivity.
  pose proof (Rle_0_sqr (vx v)) as X. pose proof (Rle_0_sqr (vy v)) as Y. pose proof (Rle_0_sqr (vz v)) as Z. unfold Rsqr in X, Y, Z.
  split; [|split]; apply Q; lra.
Qed.
Local Lemma dot_sq v m : norm v <= m -> vx v * vx v + vy v * vy v + vz v * vz v <= m * m.
Proof.
  intros H. pose proof (sqrt_pos (dot v v)) as P. change (0 <= norm v) in P. change (dot v v <= m * m).
  rewrite <- (sqrt_sqrt (dot v v)). 2:{ unfold dot. nra. } change (norm v * norm v <= m * m). nra.
Qed.
Local Lemma two_products p q p' q' : p * p + p' * p' <= 2 * g * (2 * g) -> q * q + q' * q' <= 2 * wE * (2 * wE) -> Rabs (p * q) + Rabs (p' * q') <= 4 * (g * wE).
Proof.
  intros H1 H2. rewrite !Rabs_mult.
  assert (A1 : Rabs p * Rabs p = p * p) by (rewrite <- Rabs_mult; apply Rabs_right, Rle_ge; nra).
  assert (A2 : Rabs p' * Rabs p' = p' * p') by (rewrite <- Rabs_mult; apply Rabs_right, Rle_ge; nra).
  assert (A3 : Rabs q * Rabs q = q * q) by (rewrite <- Rabs_mult; apply Rabs_right, Rle_ge; nra).
  assert (A4 : Rabs q' * Rabs q' = q' * q') by (rewrite <- Rabs_mult; apply Rabs_right, Rle_ge; nra).
  rewrite <- A1, <- A2 in H1. rewrite <- A3, <- A4 in H2.
  pose proof (Rabs_pos p) as P1. pose proof (Rabs_pos p') as P2. pose proof (Rabs_pos q) as P3. pose proof (Rabs_pos q') as P4.
  set (x := Rabs p) in *. set (x' := Rabs p') in *. set (y := Rabs q) in *. set (y' := Rabs q') in *.
  assert (S : (x * y + x' * y') * (x * y + x' * y') <= (4 * (g * wE)) * (4 * (g * wE))).
  { apply Rle_trans with ((x * x + x' * x') * (y * y + y' * y')); [pose proof (Rle_0_sqr (x * y' - x' * y)) as K; unfold Rsqr in K; lra|].
    replace (4 * (g * wE) * (4 * (g * wE))) with (2 * g * (2 * g) * (2 * wE * (2 * wE))) by ring. apply Rmult_le_compat; nra. }
  assert (0 <= x * y + x' * y') by nra. assert (0 < g * wE) by nra. nra.
Qed.
Local Lemma cross_ab p q p' q' : Rabs (p * q) + Rabs (p' * q') <= 4 * (g * wE) -> ab (- r (r (p * q) - r (p' * q'))) (- (p * q - p' * q')) (21 / 10) (4 * (g * wE)).
Proof.
  intros H. apply ab_opp. assert (G : 4 / 1000000 <= 4 * (g * wE)) by nra. set (m := 4 * (g * wE)) in *.
  assert (D0 : ab (r (p * q) - r (p' * q')) (p * q - p' * q') (1 + / 1000000) m).
  { pose proof (proj1 HF (p * q)) as E1. pose proof (proj1 HF (p' * q')) as E2. pose proof U0 as U0. pose proof eta80 as E8. pose proof u64_val as V. split.
    - replace (r (p * q) - r (p' * q') - (p * q - p' * q')) with ((r (p * q) - p * q) + - (r (p' * q') - p' * q')) by ring.
      eapply Rle_trans; [apply Rabs_triang|]. rewrite Rabs_Ropp.
      assert (Q : u64 * (Rabs (p * q) + Rabs (p' * q')) <= U * m) by (apply Rmult_le_compat; try lra; pose proof (Rabs_pos (p * q)); pose proof (Rabs_pos (p' * q')); lra).
      assert (Q2 : 2 * eta64 <= / 1000000 * (U * m)).
      { apply Rle_trans with (/ 1000000 * (/ 10000000000000000 * (4 / 1000000))); [lra|]. apply Rmult_le_compat_l; [lra|]. apply Rmult_le_compat; lra. }
      replace ((1 + / 1000000) * U * m) with (U * m + / 1000000 * (U * m)) by ring. lra.
    - eapply Rle_trans; [apply (Rabs_triang (p * q) (- (p' * q')))|]. rewrite Rabs_Ropp. exact H. }
  eapply ab_le; [refine (ab_rnd _ _ _ _ D0 ltac:(lra) _)|lra]. unfold small_scale. lra.
Qed.
(** One entry of the product: the terms that matter and the terms that should
    vanish. *)
Local Lemma entry_dot p q t x y z e M : 0 <= e <= 100 -> 0 <= M -> Rabs (x * p) + Rabs (y * q) + Rabs (z * t) <= (1 + / 1000) * (4 * M) ->
  1 <= M -> forall ex, Rabs (x * p + y * q + z * t - ex) <= e * U * M -> Rabs (fdot F (V3 x y z) (V3 p q t) - ex) <= (e + 1602 / 100) * U * M.
Proof.
  intros E M0 H M1 ex K. pose proof (proj1 (proj2 HF) (V3 x y z) (V3 p q t)) as DD. unfold dot in DD. cbn [vx vy vz] in DD.
  replace (fdot F (V3 x y z) (V3 p q t) - ex) with ((fdot F (V3 x y z) (V3 p q t) - (x * p + y * q + z * t)) + (x * p + y * q + z * t - ex)) by ring.
  eapply Rle_trans; [apply Rabs_triang|]. pose proof U0 as U0. pose proof eta80 as E8. pose proof u64_val as V.
  assert (Q : 4 * u64 * (Rabs (x * p) + Rabs (y * q) + Rabs (z * t)) <= 4 * U * ((1 + / 1000) * (4 * M))).
  { apply Rmult_le_compat; try lra. pose proof (Rabs_pos (x * p)). pose proof (Rabs_pos (y * q)). pose proof (Rabs_pos (z * t)). lra. }
  assert (Q2 : 8 * eta64 <= / 1000000 * (U * M)).
  { apply Rle_trans with (/ 1000000 * (/ 10000000000000000 * 1)); [lra|]. apply Rmult_le_compat_l; [lra|]. apply Rmult_le_compat; lra. }
  assert (0 <= U * M) by nra. replace (4 * U * ((1 + / 1000) * (4 * M))) with (16016 / 1000 * (U * M)) in Q by field.
  replace (e * U * M) with (e * (U * M)) in K by ring. replace ((e + 1602 / 100) * U * M) with ((e + 1602 / 100) * (U * M)) by ring. lra.
Qed.
Local Lemma zt_mul x p : zt x -> Rabs p <= 1000 -> Rabs (x * p) <= / 1000000 * U.
Proof.
  intros Z P. rewrite Rabs_mult. unfold zt in Z. pose proof u64_val as V.
  apply Rle_trans with (/ 100000000000000000000 * / 100000000000000000000 * / 1000000000000000 * 1000); [apply Rmult_le_compat; try apply Rabs_pos; assumption|]. lra.
Qed.
Local Notation M := (/ c).
Local Lemma M1 : 1 <= M. Proof. rewrite <- Rinv_1 at 1. apply Rinv_le_contravar; [lra|apply c1]. Qed.
Local Lemma size_of x y k m : ab x y k m -> 0 <= k <= 1000 -> Rabs x <= (1 + / 10000) * m.
Proof.
  intros H K. pose proof (ab_m _ _ _ _ H) as M0. destruct H as [H1 H2]. pose proof U0. replace x with ((x - y) + y) by ring. eapply Rle_trans; [apply Rabs_triang|].
  assert (k * U * m <= / 10000 * m) by (apply Rmult_le_compat_r; nra). lra.
Qed.
Local Lemma row_one i11 i12 i13 p q t : ab i11 (- (s / (g * c))) 25 (/ (g * c)) -> ab i12 (/ (wE * c)) 22 (/ (wE * c)) -> zt i13 ->
  Rabs p <= 2 * g -> Rabs q <= 2 * wE -> Rabs t <= 1000 ->
  Rabs (fdot F (V3 i11 i12 i13) (V3 p q t) - / (wE * c) * (q - wE * sin lat * / g * p)) <= 115 * U * M.
Proof.
  intros H1 H2 H3 P Q T. pose proof M1 as M1. pose proof U0 as U0.
  pose proof (ab_mul _ _ _ _ _ _ _ _ H1 (ab_exact p (2 * g) P) ltac:(lra) ltac:(lra)) as A1.
  pose proof (ab_mul _ _ _ _ _ _ _ _ H2 (ab_exact q (2 * wE) Q) ltac:(lra) ltac:(lra)) as A2.
  replace (/ (g * c) * (2 * g)) with (2 * M) in A1 by (field; repeat split; lra). replace (/ (wE * c) * (2 * wE)) with (2 * M) in A2 by (field; repeat split; lra).
  pose proof (size_of _ _ _ _ A1 ltac:(lra)) as S1. pose proof (size_of _ _ _ _ A2 ltac:(lra)) as S2. pose proof (zt_mul _ _ H3 T) as S3.
  apply Rle_trans with ((95 + 1602 / 100) * U * M). 2:{ apply Rmult_le_compat_r; [lra|]. apply Rmult_le_compat_r; lra. }
  apply entry_dot; try lra.
  destruct A1 as [A1 _]. destruct A2 as [A2 _].
  replace (i11 * p + i12 * q + i13 * t - / (wE * c) * (q - wE * sin lat * / g * p)) with
    ((i11 * p - - (s / (g * c)) * p) + (i12 * q - / (wE * c) * q) + i13 * t) by (field; repeat split; lra).
  eapply Rle_trans; [apply Rabs_triang|]. eapply Rle_trans; [apply Rplus_le_compat_r, Rabs_triang|].
  assert (U <= U * M) by nra.
  replace ((25 + 0 + / 1000000) * U * (2 * M)) with ((50 + 2 / 1000000) * (U * M)) in A1 by (field; lra).
  replace ((22 + 0 + / 1000000) * U * (2 * M)) with ((44 + 2 / 1000000) * (U * M)) in A2 by (field; lra). replace (95 * U * M) with (95 * (U * M)) by ring. lra.
Qed.
Local Lemma row_two i21 i22 i23 p q t ex : zt i21 -> zt i22 -> ab i23 (/ (g * wE * c)) 21 (/ (g * wE * c)) ->
  Rabs p <= 1000 -> Rabs q <= 1000 -> ab t ex (21 / 10) (4 * (g * wE)) ->
  Rabs (fdot F (V3 i21 i22 i23) (V3 p q t) - / (g * wE * c) * ex) <= 115 * U * M.
Proof.
  intros H1 H2 H3 P Q T. pose proof M1 as M1. pose proof U0 as U0.
  pose proof (ab_mul _ _ _ _ _ _ _ _ H3 T ltac:(lra) ltac:(lra)) as A1.
  assert (NZ : g <> 0 /\ wE <> 0 /\ c <> 0) by (repeat split; lra). destruct NZ as (N1 & N2 & N3).
  replace (/ (g * wE * c) * (4 * (g * wE))) with (4 * M) in A1 by (field; auto).
  pose proof (size_of _ _ _ _ A1 ltac:(lra)) as S1. pose proof (zt_mul _ _ H1 P) as S2. pose proof (zt_mul _ _ H2 Q) as S3.
  apply Rle_trans with ((93 + 1602 / 100) * U * M). 2:{ apply Rmult_le_compat_r; [lra|]. apply Rmult_le_compat_r; lra. }
  apply entry_dot; try lra.
  destruct A1 as [A1 _].
  replace (i21 * p + i22 * q + i23 * t - / (g * wE * c) * ex) with
    (i21 * p + i22 * q + (i23 * t - / (g * wE * c) * ex)) by ring.
  eapply Rle_trans; [apply Rabs_triang|]. eapply Rle_trans; [apply Rplus_le_compat_r, Rabs_triang|].
  assert (U <= U * M) by nra.
  replace ((21 + 21 / 10 + / 1000000) * U * (4 * M)) with ((924 / 10 + 4 / 1000000) * (U * M)) in A1 by (field; lra). replace (93 * U * M) with (93 * (U * M)) by ring. lra.
Qed.
Local Lemma row_three i31 i32 i33 p q t : ab i31 (- / g) 25 (/ g) -> zt i32 -> zt i33 ->
  Rabs p <= 2 * g -> Rabs q <= 1000 -> Rabs t <= 1000 ->
  Rabs (fdot F (V3 i31 i32 i33) (V3 p q t) - - / g * p) <= 115 * U * M.
Proof.
  intros H1 H2 H3 P Q T. pose proof M1 as M1. pose proof U0 as U0.
  pose proof (ab_mul _ _ _ _ _ _ _ _ H1 (ab_exact p (2 * g) P) ltac:(lra) ltac:(lra)) as A1.
  replace (/ g * (2 * g)) with 2 in A1 by (field; lra).
  pose proof (size_of _ _ _ _ A1 ltac:(lra)) as S1. pose proof (zt_mul _ _ H2 Q) as S2. pose proof (zt_mul _ _ H3 T) as S3.
  apply Rle_trans with ((95 + 1602 / 100) * U * M). 2:{ apply Rmult_le_compat_r; [lra|]. apply Rmult_le_compat_r; lra. }
  apply entry_dot; try lra.
  destruct A1 as [A1 _].
  replace (i31 * p + i32 * q + i33 * t - - / g * p) with
    ((i31 * p - - / g * p) + i32 * q + i33 * t) by ring.
  eapply Rle_trans; [apply Rabs_triang|]. eapply Rle_trans; [apply Rplus_le_compat_r, Rabs_triang|].
  assert (U <= U * M) by nra.
  replace ((25 + 0 + / 1000000) * U * 2) with ((50 + 2 / 1000000) * U) in A1 by (field; lra). replace (95 * U * M) with (95 * (U * M)) by ring. lra.
Qed.
Local Lemma coarse_close_U : exists R0 R', coarseAttitudeAlignment lat wE g a w = Ret (true, R0) /\ coarseAttitudeAlignment_f F lat wE g a w = Ret (true, R') /\
  entries_within (115 * U * M) R' R0.
Proof.
  assert (NZ : g <> 0 /\ wE <> 0 /\ c <> 0) by (repeat split; lra). destruct NZ as (N1 & N2 & N3).
  rewrite coarse_closed by assumption.
  destruct inverse_f as (i11 & i12 & i13 & i21 & i22 & i23 & i31 & i32 & i33 & E & I11 & I12 & I13 & I21 & I22 & I23 & I31 & I32 & I33).
  eexists _, _. split; [reflexivity|]. unfold coarseAttitudeAlignment_f. fold b' d' k'. rewrite E. cbn [bind]. split; [reflexivity|].
  unfold mmul_f, entries_within, row1, row2, row3, col1, col2, col3. cbn [m11 m12 m13 m21 m22 m23 m31 m32 m33].
  destruct (comp_le a _ HA) as (A1 & A2 & A3). destruct (comp_le w _ HW) as (W1 & W2 & W3). pose proof (dot_sq a _ HA) as AD. pose proof (dot_sq w _ HW) as WD.
  pose proof (Rle_0_sqr (vx a)) as Sa1. pose proof (Rle_0_sqr (vy a)) as Sa2. pose proof (Rle_0_sqr (vz a)) as Sa3.
  pose proof (Rle_0_sqr (vx w)) as Sw1. pose proof (Rle_0_sqr (vy w)) as Sw2. pose proof (Rle_0_sqr (vz w)) as Sw3. unfold Rsqr in *.
  pose proof (cross_ab (vy a) (vz w) (vz a) (vy w) (two_products (vy a) (vz w) (vz a) (vy w) ltac:(lra) ltac:(lra))) as X1.
  pose proof (cross_ab (vz a) (vx w) (vx a) (vz w) (two_products (vz a) (vx w) (vx a) (vz w) ltac:(lra) ltac:(lra))) as X2.
  pose proof (cross_ab (vx a) (vy w) (vy a) (vx w) (two_products (vx a) (vy w) (vy a) (vx w) ltac:(lra) ltac:(lra))) as X3.
  assert (GW : 4 * (g * wE) <= 400) by nra.
  pose proof (size_of _ _ _ _ X1 ltac:(lra)) as T1. pose proof (size_of _ _ _ _ X2 ltac:(lra)) as T2. pose proof (size_of _ _ _ _ X3 ltac:(lra)) as T3.
  assert (K : forall x, - (/ g * / (wE * c)) * x = / (g * wE * c) * - x) by (intros; field; auto). cbn [cross vx vy vz].
  repeat split; try (apply row_one; try assumption; lra); try (apply row_three; try assumption; lra); rewrite K; apply row_two; try assumption; lra.
Qed.
End A.

Lemma coarse_close F lat wE g a w : float_ok F -> 1 / 1000 <= cos lat -> 1 <= g <= 100 -> 1 / 1000000 <= wE <= 1 -> norm a <= 2 * g -> norm w <= 2 * wE ->
  exists R0 R', coarseAttitudeAlignment lat wE g a w = Ret (true, R0) /\ coarseAttitudeAlignment_f F lat wE g a w = Ret (true, R') /\
    entries_within (115 * u64 / (cos lat * cos lat)) R' R0.
Proof.
  intros HF Hc Hg Hw HA HW. pose proof u64_tight as T. pose proof (COS_bound lat) as B.
  assert (HU : u64 <= u64 / cos lat <= 1 / 1000000000000).
  { split.
    - apply (Rmult_le_reg_r (cos lat)); [lra|]. replace (u64 / cos lat * cos lat) with u64 by (field; lra). nra.
    - apply (Rmult_le_reg_r (cos lat)); [lra|]. replace (u64 / cos lat * cos lat) with u64 by (field; lra). lra. }
  replace (115 * u64 / (cos lat * cos lat)) with (115 * (u64 / cos lat) * / cos lat) by (field; lra).
  exact (coarse_close_U (u64 / cos lat) HU F HF lat wE g eq_refl Hc Hg Hw a w HA HW).
Qed.
Lemma norm_rest g Rm : is_rotation Rm -> 0 <= g -> norm (mvmul (mtr Rm) (rest_force g)) <= 2 * g.
Proof.
  intros HR G. rewrite rotation_norm_t by exact HR. unfold norm, rest_force, dot. cbn [vx vy vz].
  replace (0 * 0 + 0 * 0 + - g * - g) with (g * g) by ring. rewrite sqrt_square by exact G. lra.
Qed.
Lemma norm_rate wE lat Rm : is_rotation Rm -> 0 <= wE -> norm (mvmul (mtr Rm) (earth_rate wE lat)) <= 2 * wE.
Proof.
  intros HR G. rewrite rotation_norm_t by exact HR. unfold norm, earth_rate, dot. cbn [vx vy vz]. pose proof (sc2 lat) as S.
  replace (wE * cos lat * (wE * cos lat) + 0 * 0 + - (wE * sin lat) * - (wE * sin lat)) with (wE * wE * (sin lat * sin lat + cos lat * cos lat)) by ring.
  rewrite S, Rmult_1_r, sqrt_square by exact G. lra.
Qed.
Lemma coarse_aligned F lat wE g Rm : float_ok F -> 1 / 1000 <= cos lat -> 1 <= g <= 100 -> 1 / 1000000 <= wE <= 1 -> is_rotation Rm ->
  exists R', coarseAttitudeAlignment_f F lat wE g (mvmul (mtr Rm) (rest_force g)) (mvmul (mtr Rm) (earth_rate wE lat)) = Ret (true, R') /\
    entries_within (115 * u64 / (cos lat * cos lat)) R' Rm.
Proof.
  intros HF Hc Hg Hw HR. pose proof (norm_rest g Rm HR ltac:(lra)) as A. pose proof (norm_rate wE lat Rm HR ltac:(lra)) as W.
  destruct (coarse_close F lat wE g _ _ HF Hc Hg Hw A W) as (R0 & R' & E0 & E' & N).
  rewrite coarse_true in E0 by (try assumption; lra). injection E0 as <-. exists R'. split; assumption.
Qed.
Lemma coarse_exact lat wE g a w : coarseAttitudeAlignment_f exact_ops lat wE g a w = coarseAttitudeAlignment lat wE g a w.
Proof.
  unfold coarseAttitudeAlignment_f, coarseAttitudeAlignment, minvc_f, minvc. cbn [frnd fsin fcos fdot exact_ops m11 m12 m13 m21 m22 m23 m31 m32 m33].
  unfold mdet, dot, col1. cbn [vx vy vz m11 m12 m13 m21 m22 m23 m31 m32 m33].
  match goal with |- bind (bind (Rdivc 1 ?x) _) _ = bind (bind (Rdivc 1 ?y) _) _ => replace x with y by ring end.
  unfold Rdivc. destruct Req_EM_T; [reflexivity|]. cbn [bind]. f_equal. f_equal.
  unfold mmul_f, mmul, mscale, madj, vneg, cross, row1, row2, row3, col1, col2, col3, dot. cbn [fdot exact_ops vx vy vz m11 m12 m13 m21 m22 m23 m31 m32 m33]. unfold dot. cbn [vx vy vz]. f_equal; ring.
Qed.
