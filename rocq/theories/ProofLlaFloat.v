(** Error analysis of ecef2Lla. *)
From Coq Require Import Reals ZArith Lra Lia Psatz.
From Flocq Require Import Core.
From Verif Require Import Base BaseVec SpecRot SpecEarth ModelGravity ModelFrames ModelDate ModelGuardFloat ModelStrapdownFloat ModelFramesFloat
  ModelGravityFloat ModelLlaFloat SpecFloatOps SpecLlaFloat ProofPi ProofVec ProofTrig ProofFrames ProofFrames3 ProofStrapdownFloat
  ProofStrapdownFloat2 ProofFramesFloat ProofGravityFloat ProofBowring.
Open Scope R_scope.

(** The angle of a vector in the right half plane moves by at most 1.45 times
    the relative error of the vector. *)
Lemma atan_diff x y : - 1 < x * y -> Rabs (atan x - atan y) <= Rabs (x - y) / (1 + x * y).
Proof.
  intros H. assert (D : atan x - atan y = atan ((x - y) / (1 + x * y))).
  { pose proof (atan_bound x) as A. pose proof (atan_bound y) as B. pose proof PI_RGT_0.
    assert (CX : 0 < cos (atan x)) by (apply cos_gt_0; lra). assert (CY : 0 < cos (atan y)) by (apply cos_gt_0; lra).
    assert (SX : sin (atan x) = x * cos (atan x)) by (rewrite <- (atan_right_inv x) at 2; unfold tan; field; lra).
    assert (SY : sin (atan y) = y * cos (atan y)) by (rewrite <- (atan_right_inv y) at 2; unfold tan; field; lra).
    set (d := atan x - atan y). assert (CD : 0 < cos d).
    { unfold d. rewrite cos_minus, SX, SY. replace (cos (atan x) * cos (atan y) + x * cos (atan x) * (y * cos (atan y)))
        with ((cos (atan x) * cos (atan y)) * (1 + x * y)) by ring. apply Rmult_lt_0_compat; [now apply Rmult_lt_0_compat|lra]. }
    assert (DB : - (PI / 2) < d < PI / 2).
    { assert (- PI < d < PI) by (unfold d; lra). split.
      - apply Rnot_le_lt. intros L. assert (cos d <= 0); [|lra]. rewrite <- cos_neg. apply cos_le_0; lra.
      - apply Rnot_le_lt. intros L. assert (cos d <= 0); [|lra]. apply cos_le_0; lra. }
    rewrite <- (atan_tan d) by lra. f_equal. unfold tan, d. rewrite sin_minus, cos_minus, SX, SY. field.
    split; [lra|]. replace (cos (atan x) * cos (atan y) + x * cos (atan x) * (y * cos (atan y)))
        with ((cos (atan x) * cos (atan y)) * (1 + x * y)) by ring. apply Rgt_not_eq. apply Rmult_lt_0_compat; [now apply Rmult_lt_0_compat|lra]. }
  rewrite D. set (t := (x - y) / (1 + x * y)). replace (Rabs (x - y) / (1 + x * y)) with (Rabs t).
  - destruct (MVT_abs atan (fun z => / (1 + z ^ 2)) 0 t) as (c & E & _). { intros. apply derivable_pt_lim_atan. }
    rewrite atan_0, !Rminus_0_r in E. rewrite E. rewrite Rabs_right.
    + pose proof (pow2_ge_0 c). assert (/ (1 + c ^ 2) <= / 1) by (apply Rinv_le; lra). pose proof (Rabs_pos t). nra.
    + pose proof (pow2_ge_0 c). apply Rle_ge, Rlt_le, Rinv_0_lt_compat. lra.
  - unfold t, Rdiv. rewrite Rabs_mult. f_equal. rewrite Rabs_right; [reflexivity|]. apply Rle_ge, Rlt_le, Rinv_0_lt_compat. lra.
Qed.
Lemma atan2_lip x y x' y' d n : 0 < x -> 0 < x' -> 0 < n -> n * n <= x * x + y * y ->
  Rabs (x' - x) <= d -> Rabs (y' - y) <= d -> d <= n / 100 -> Rabs (atan2 y' x' - atan2 y x) <= 145 / 100 * (d / n).
Proof.
  intros X X' N H HX HY HD. rewrite !atan2_pos by auto.
  assert (D0 : 0 <= d) by (pose proof (Rabs_pos (x' - x)); lra).
  set (m := sqrt (x * x + y * y)). assert (M0 : n <= m).
  { unfold m. rewrite <- (sqrt_square n) by lra. apply sqrt_le_1_alt. lra. }
  assert (MM : m * m = x * x + y * y) by (apply sqrt_sqrt; nra).
  assert (SQ : Rabs x + Rabs y <= 1415 / 1000 * m).
  { apply Rsqr_incr_0_var; [|lra]. unfold Rsqr. replace (1415 / 1000 * m * (1415 / 1000 * m)) with (1415 * 1415 / 1000000 * (m * m)) by field.
    rewrite MM. pose proof (Rsqr_abs x) as A. pose proof (Rsqr_abs y) as B. unfold Rsqr in A, B. rewrite A, B.
    pose proof (Rle_0_sqr (Rabs x - Rabs y)) as C. pose proof (Rle_0_sqr (Rabs x)) as C1. pose proof (Rle_0_sqr (Rabs y)) as C2. unfold Rsqr in C, C1, C2. lra. }
  assert (ND : Rabs (y' * x - y * x') <= d * (1415 / 1000 * m)).
  { replace (y' * x - y * x') with ((y' - y) * x + - (y * (x' - x))) by ring. eapply Rle_trans; [apply Rabs_triang|].
    rewrite Rabs_Ropp, !Rabs_mult. pose proof (Rabs_pos x). pose proof (Rabs_pos y).
    assert (Rabs (y' - y) * Rabs x <= d * Rabs x) by (apply Rmult_le_compat_r; auto).
    assert (Rabs y * Rabs (x' - x) <= Rabs y * d) by (apply Rmult_le_compat_l; auto).
    assert (d * (Rabs x + Rabs y) <= d * (1415 / 1000 * m)) by (apply Rmult_le_compat_l; auto). lra. }
  assert (DN : 98 / 100 * (m * m) <= x * x' + y * y').
  { replace (x * x' + y * y') with (m * m + (x * (x' - x) + y * (y' - y))) by (rewrite MM; ring).
    assert (A : Rabs (x * (x' - x) + y * (y' - y)) <= d * (1415 / 1000 * m)).
    { eapply Rle_trans; [apply Rabs_triang|]. rewrite !Rabs_mult. pose proof (Rabs_pos x). pose proof (Rabs_pos y).
      assert (Rabs y * Rabs (y' - y) <= Rabs y * d) by (apply Rmult_le_compat_l; auto).
      assert (Rabs x * Rabs (x' - x) <= Rabs x * d) by (apply Rmult_le_compat_l; auto).
      assert (d * (Rabs x + Rabs y) <= d * (1415 / 1000 * m)) by (apply Rmult_le_compat_l; auto). lra. }
    apply Rabs_le_inv in A. assert (d * (1415 / 1000 * m) <= m / 100 * (1415 / 1000 * m)) by (apply Rmult_le_compat_r; lra). lra. }
  assert (MP : 0 < m * m) by (apply Rmult_lt_0_compat; lra). assert (XX : 0 < x * x') by now apply Rmult_lt_0_compat.
  assert (P : y' / x' * (y / x) = y * y' / (x * x')) by (field; lra).
  assert (Q : 1 + y' / x' * (y / x) = (x * x' + y * y') / (x * x')) by (field; lra).
  assert (Q0 : 0 < 1 + y' / x' * (y / x)).
  { rewrite Q. apply Rmult_lt_0_compat; [lra|]. now apply Rinv_0_lt_compat. }
  eapply Rle_trans; [apply atan_diff; lra|]. rewrite Q.
  replace (y' / x' - y / x) with ((y' * x - y * x') * / (x * x')) by (field; lra). rewrite Rabs_mult, (Rabs_right (/ (x * x'))) by (apply Rle_ge, Rlt_le, Rinv_0_lt_compat; lra).
  replace (Rabs (y' * x - y * x') * / (x * x') / ((x * x' + y * y') / (x * x'))) with (Rabs (y' * x - y * x') / (x * x' + y * y')) by (field; lra).
  apply Rle_trans with (d * (1415 / 1000 * m) / (98 / 100 * (m * m))).
  - unfold Rdiv at 1 4. apply Rmult_le_compat; [apply Rabs_pos|apply Rlt_le, Rinv_0_lt_compat; lra|lra|apply Rinv_le; lra].
  - replace (d * (1415 / 1000 * m) / (98 / 100 * (m * m))) with (1415 / 980 * d * / m) by (field; lra).
    replace (145 / 100 * (d / n)) with (145 / 100 * d * / n) by (field; lra).
    apply Rmult_le_compat; [lra|apply Rlt_le, Rinv_0_lt_compat; lra|lra|apply Rinv_le; lra].
Qed.

Section Lla.
Variable F : FloatOps.
Hypothesis HF : float_ok F.
Variable pow2 pow3 : R -> R.
Hypothesis HP : pow2_ok pow2.
Hypothesis HC : pow3_ok pow3.
Variable at2 : R -> R -> R.
Hypothesis HA : atan2_ok F at2.
Let r := frnd F.

Lemma ap_pow3 x y k : ap x y k 1 -> k <= 1000 -> ap (pow3 x) (y * y * y) (k * (301 / 100) + 3) 1.
Proof.
  intros H Hk. pose proof (ap_mul _ _ _ _ _ _ _ _ (ap_mul _ _ _ _ _ _ _ _ H H) H) as T. pose proof (ap_pos _ _ _ _ H) as (P & _).
  assert (T' : ap (x * x * x) (y * y * y) (k * (301 / 100)) 1) by (eapply ap_le; [exact T| |]; unfold e15; nra).
  pose proof (ap_abs _ _ _ _ T') as A. destruct T' as (T1 & T2). split; [|auto].
  pose proof (HC x) as R. pose proof (abs_tri _ _ _ _ _ R T1) as Q. eapply Rle_trans; [exact Q|].
  pose proof u64_bounds as U. pose proof eta_e20 as E. assert (Rabs (x * x * x) <= 11 / 10) by (unfold e15 in A; lra).
  assert (2 * u * Rabs (x * x * x) <= 2 * u * (11 / 10)) by (apply Rmult_le_compat_l; lra). unfold e20 in E. lra.
Qed.
Lemma ap_trig (g g0 : R -> R) x y k : (forall t, Rabs (g t - g0 t) <= 2 * u) -> (forall s t, Rabs (g0 s - g0 t) <= Rabs (s - t)) -> (forall t, Rabs (g0 t) <= 1) ->
  Rabs (x - y) <= k * u -> ap (g x) (g0 y) (2 + k) 1.
Proof. intros G L B H. split; [|apply B]. pose proof (abs_tri _ _ _ _ _ (G x) (Rle_trans _ _ _ (L x y) H)). lra. Qed.
Lemma cos_lip1 a b : Rabs (cos a - cos b) <= Rabs (a - b).
Proof.
  destruct (MVT_abs cos (fun t => - sin t) b a) as (c & E & _). { intros. apply derivable_pt_lim_cos. }
  rewrite E, Rabs_Ropp. assert (Rabs (sin c) <= 1) by (apply Rabs_le, SIN_bound). pose proof (Rabs_pos (a - b)). nra.
Qed.
Lemma ap_sin2 x y k : Rabs (x - y) <= k * u -> ap (fsin F x) (sin y) (2 + k) 1.
Proof. apply ap_trig; [apply HF|apply sin_lip|intros; apply Rabs_le, SIN_bound]. Qed.
Lemma ap_cos2 x y k : Rabs (x - y) <= k * u -> ap (fcos F x) (cos y) (2 + k) 1.
Proof. apply ap_trig; [apply HF|apply cos_lip1|intros; apply Rabs_le, COS_bound]. Qed.

Ltac bnl := lazymatch goal with
  | H : ap ?x ?y _ _ |- ap ?x ?y _ _ => exact H
  | |- ap (frnd _ _) _ _ _ => eapply (ap_rnd F HF); bnl
  | |- ap (pow2 _) (_ * _) _ _ => eapply (ap_pow2 pow2 HP); [bnl|num]
  | |- ap (_ * _) (_ * _) _ _ => eapply ap_mul; [bnl|bnl]
  | |- ap (_ + _) (_ + _) _ _ => eapply ap_add; [bnl|bnl]
  | |- ap (_ - _) (_ - _) _ _ => eapply ap_sub; [bnl|bnl]
  | |- ap ?x ?x _ _ => apply ap_const; lra end.
Ltac al := eapply ap_le; [bnl| |]; num.

(** The second eccentricity. *)
Let b := gp_b_f F.
Let qh := r (pow2 gp_a_f - pow2 b).
Lemma pb_ap : ap (pow2 b) (gp_b * gp_b) 203000000000000 40500000000000.
Proof. pose proof (ap_b F HF). unfold b. al. Qed.
Lemma qh_ap : pow2 b <> 0 /\ ap (r (qh / pow2 b)) ep2 (82 / 10) (68 / 10000).
Proof.
  pose proof ap_a as A. pose proof pb_ap as B. assert (A2 : ap (pow2 gp_a_f) (gp_a * gp_a) 123000000000000 40700000000000) by al.
  assert (Q : ap qh (gp_a * gp_a - gp_b * gp_b) 327000000000000 300000000000).
  { assert (X : ap (pow2 gp_a_f - pow2 b) (gp_a * gp_a - gp_b * gp_b) 326000000000000 300000000000).
    { eapply apM; [eapply ap_le; [apply ap_sub; [exact A2|exact B]| |apply Rle_refl]; num|]. unfold gp_a, gp_b. apply Rabs_le. lra. }
    unfold qh, r. al. }
  destruct (ap_div _ _ _ _ _ _ _ _ 40400000000000 Q B) as (N & D); [lra|unfold gp_b; rewrite Rabs_right; lra|num|].
  split; [exact N|]. assert (D' : ap (qh / pow2 b) ep2 (819 / 100) (68 / 10000)).
  { eapply apM; [eapply ap_le; [exact D| |apply Rle_refl]; num|]. pose proof ep2_bounds. apply Rabs_le. lra. }
  unfold r. al.
Qed.
Lemma ep_ap : 0 <= r (qh / pow2 b) /\ ap (pow2 (r (sqrt (r (qh / pow2 b))))) ep2 19 (68 / 10000).
Proof.
  pose proof ep2_bounds as E. destruct (ap_sqrt _ _ _ _ (8 / 100) (proj2 qh_ap)) as (P & S); [lra|lra|lra|num|]. split; [exact P|].
  assert (S' : ap (r (sqrt (r (qh / pow2 b)))) (sqrt ep2) (1028 / 10) (83 / 1000)).
  { assert (M : Rabs (sqrt ep2) <= 83 / 1000).
    { rewrite Rabs_right by (apply Rle_ge, sqrt_pos). rewrite <- (sqrt_square (83 / 1000)) by lra. apply sqrt_le_1_alt. lra. }
    pose proof (apM _ _ _ _ _ S M) as S1. unfold r at 1. eapply ap_le; [apply (ap_rnd F HF); exact S1| |]; num. }
  eapply apM; [rewrite <- ep_sqrt; eapply ap_le; [apply (ap_pow2 pow2 HP); [exact S'|num]| |apply Rle_refl]; num|].
  rewrite Rabs_right; lra.
Qed.

(** The point. *)
Variable rE : vec3.
Let x := vx rE. Let y := vy rE. Let z := vz rE. Let R0 := norm rE. Let p := rho rE.
Hypothesis HR : 6300000 <= R0 <= 16500000.
Hypothesis HT : R0 <= 60 * p.
Lemma nn : R0 * R0 = p * p + z * z.
Proof.
  unfold R0, p, rho. rewrite norm_sq. rewrite sqrt_sqrt; [unfold dot; reflexivity|].
  pose proof (Rle_0_sqr (vx rE)) as A. pose proof (Rle_0_sqr (vy rE)) as B. unfold Rsqr in *. lra.
Qed.
Lemma p_range : 105000 <= p <= R0.
Proof. pose proof nn. pose proof (Rle_0_sqr z) as Z. unfold Rsqr in Z. split; [lra|]. unfold p in *. pose proof (rho_nonneg rE). nra. Qed.
Lemma z_le : Rabs z <= R0.
Proof.
  pose proof nn. pose proof p_range. apply Rsqr_incr_0_var; [|lra]. rewrite <- Rsqr_abs. unfold Rsqr.
  pose proof (Rle_0_sqr p) as Z. unfold Rsqr in Z. lra.
Qed.
Let s := r (pow2 x + pow2 y).
Let ph := r (sqrt s).
(** The distance from the axis, relatively. *)
Lemma p_ap : 0 <= s /\ ap ph p 68000000 16500000.
Proof.
  pose proof p_range as P. pose proof u64_bounds as U. pose proof eta_e20 as E. pose proof eta_pos as E0.
  assert (PP : p * p = x * x + y * y).
  { unfold p, rho. apply sqrt_sqrt. apply Rplus_le_le_0_compat; apply Rle_0_sqr. }
  pose proof (HP x) as X. pose proof (HP y) as Y. pose proof (rnd_le F HF (pow2 x + pow2 y)) as S. fold (r (pow2 x + pow2 y)) in S. fold s in S.
  assert (XX : 0 <= x * x) by (pose proof (Rle_0_sqr x) as A; exact A). assert (YY : 0 <= y * y) by (pose proof (Rle_0_sqr y) as A; exact A).
  assert (PL : 105000 * 105000 <= p * p) by nra.
  assert (ES : eta64 <= u * / 1000 * (p * p)). { unfold e20 in E. nra. }
  assert (Q1 : Rabs (pow2 x + pow2 y - p * p) <= (2 + 2 / 1000) * u * (p * p)).
  { replace (pow2 x + pow2 y - p * p) with ((pow2 x - x * x) + (pow2 y - y * y)) by (rewrite PP; ring).
    eapply Rle_trans; [apply Rabs_triang|]. assert (u * (p * p) = u * (x * x) + u * (y * y)) by (rewrite PP; ring). lra. }
  assert (Q2 : Rabs (pow2 x + pow2 y) <= (1 + 1 / 1000) * (p * p)).
  { apply Rabs_le_inv in Q1. apply Rabs_le. assert ((2 + 2 / 1000) * u * (p * p) <= 1 / 1000 * (p * p)) by (apply Rmult_le_compat_r; lra). lra. }
  assert (Q3 : Rabs (s - p * p) <= 31 / 10 * u * (p * p)).
  { replace (s - p * p) with ((s - (pow2 x + pow2 y)) + (pow2 x + pow2 y - p * p)) by ring. eapply Rle_trans; [apply Rabs_triang|].
    assert (u * Rabs (pow2 x + pow2 y) <= u * ((1 + 1 / 1000) * (p * p))) by (apply Rmult_le_compat_l; lra).
    assert (0 <= u * (p * p)) by (apply Rmult_le_pos; lra). lra. }
  assert (S0 : 0 <= s). { apply Rabs_le_inv in Q3. assert (31 / 10 * u * (p * p) <= 1 / 1000 * (p * p)) by (apply Rmult_le_compat_r; lra). lra. }
  split; [exact S0|].
  assert (Q4 : Rabs (sqrt s - p) <= 31 / 10 * u * p).
  { pose proof (sqrt_pos s) as SP. assert (A : sqrt s - p = (s - p * p) / (sqrt s + p)).
    { rewrite <- (sqrt_sqrt s S0) at 2. field. lra. }
    rewrite A. unfold Rdiv. rewrite Rabs_mult, (Rabs_right (/ _)) by (apply Rle_ge, Rlt_le, Rinv_0_lt_compat; lra).
    assert (/ (sqrt s + p) <= / p) by (apply Rinv_le; lra).
    apply Rle_trans with (31 / 10 * u * (p * p) * / p); [apply Rmult_le_compat; auto using Rabs_pos; apply Rlt_le, Rinv_0_lt_compat; lra|].
    apply Req_le. field. lra. }
  assert (Q5 : ap (sqrt s) p 51200000 16500000).
  { split; [|rewrite Rabs_right; lra]. assert (31 / 10 * u * p <= 31 / 10 * u * 16500000) by (apply Rmult_le_compat_l; lra). lra. }
  unfold ph, r. al.
Qed.

(** The auxiliary angle. *)
Let th := at2 (r (gp_a_f * z)) (r (b * ph)).
Let th0 := th_of rE.
Lemma th_ap : Rabs (th - th0) <= 40 * u.
Proof.
  pose proof p_range as P. pose proof p_ap as (_ & A). pose proof z_le as Z. pose proof u64_bounds as U. pose proof nn as N.
  assert (AZ : ap z z 0 16500000) by (apply ap_exact; lra). pose proof ap_a as AA. pose proof (ap_b F HF) as AB. fold b in AB.
  assert (Y1 : ap (r (gp_a_f * z)) (gp_a * z) 640000000000000 106000000000000) by (unfold r; al).
  assert (X1 : ap (r (b * ph)) (gp_b * p) 643000000000000 106000000000000) by (unfold r; al).
  destruct Y1 as (Y1 & _), X1 as (X1 & _).
  assert (XP : 0 < gp_b * p) by (unfold gp_b; nra). assert (BP : 6356752 * 105000 <= gp_b * p) by (unfold gp_b; nra).
  assert (XP' : 0 < r (b * ph)) by (apply Rabs_le_inv in X1; lra).
  assert (L : Rabs (atan2 (r (gp_a_f * z)) (r (b * ph)) - atan2 (gp_a * z) (gp_b * p)) <= 145 / 100 * (643000000000000 * u / (6356752 * R0))).
  { apply atan2_lip; auto; [lra| |lra|].
    - replace (6356752 * R0 * (6356752 * R0)) with (6356752 * 6356752 * (R0 * R0)) by ring. rewrite N. unfold gp_a, gp_b.
      pose proof (Rle_0_sqr p) as P2. pose proof (Rle_0_sqr z) as Z2. unfold Rsqr in P2, Z2. lra.
    - lra. }
  assert (L' : 145 / 100 * (643000000000000 * u / (6356752 * R0)) <= 36 * u).
  { unfold Rdiv at 2. assert (/ (6356752 * R0) <= / (6356752 * 6300000)) by (apply Rinv_le; lra).
    assert (643000000000000 * u * / (6356752 * R0) <= 643000000000000 * u * / (6356752 * 6300000)) by (apply Rmult_le_compat_l; lra). lra. }
  pose proof (proj1 HA (r (gp_a_f * z)) (r (b * ph)) ltac:(right; lra)) as H. unfold th, th0, th_of. fold z p.
  pose proof (abs_tri _ _ _ _ _ H L). lra.
Qed.

(** The latitude. *)
Let e := r (sqrt (r (1 - pow2 (r (1 - gp_f_f F))))).
Let ep := r (sqrt (r (qh / pow2 b))).
Let latY := r (z + r (r (pow2 ep * b) * pow3 (fsin F th))).
Let latX := r (ph - r (r (pow2 e * gp_a_f) * pow3 (fcos F th))).
Let X0 := latX_of rE. Let Y0 := latY_of rE.
Lemma Y_ap : Rabs (latY - Y0) <= 150000000 * u.
Proof.
  pose proof z_le as Z. assert (AZ : ap z z 0 16500000) by (apply ap_exact; lra). pose proof (ap_b F HF) as AB. fold b in AB.
  pose proof (proj2 ep_ap) as AE. fold ep in AE. pose proof (ap_pow3 _ _ _ (ap_sin2 _ _ _ th_ap) ltac:(lra)) as S.
  assert (W : ap latY Y0 150000000 17000000); [|apply W]. unfold latY, Y0, latY_of, r. fold z th0. al.
Qed.
Lemma X_ap : Rabs (latX - X0) <= 260000000 * u.
Proof.
  pose proof (proj2 p_ap) as AP. pose proof ap_a as AA. pose proof e2_bounds as EB.
  assert (AE : ap (pow2 e) e2 25 (67 / 10000)) by (split; [apply (pe_err F HF pow2 HP)|apply Rabs_le; lra]).
  pose proof (ap_pow3 _ _ _ (ap_cos2 _ _ _ th_ap) ltac:(lra)) as S.
  assert (W : ap latX X0 260000000 17000000); [|apply W]. unfold latX, X0, latX_of, r. fold p th0. al.
Qed.
(** The exact latitude vector. *)
Lemma vec_range : 993 / 1000 * p <= X0 <= p /\ X0 * X0 + Y0 * Y0 <= (1007 / 1000 * R0) * (1007 / 1000 * R0) /\
  (993 / 1000 * R0) * (993 / 1000 * R0) <= X0 * X0 + Y0 * Y0.
Proof.
  pose proof p_range as P. pose proof nn as N. pose proof (rho_nonneg rE) as RP. destruct (th_polar rE ltac:(fold p; lra)) as (D0 & DD & C & S).
  set (D := sqrt (gp_b * rho rE * (gp_b * rho rE) + gp_a * vz rE * (gp_a * vz rE))) in D0, DD, C, S. fold p z in DD, C, S. pose proof e2_bounds as EB. pose proof ep2_bounds as EP.
  assert (DL : gp_b * R0 <= D).
  { apply Rsqr_incr_0_var; [|lra]. unfold Rsqr. rewrite DD. replace (gp_b * R0 * (gp_b * R0)) with (gp_b * gp_b * (R0 * R0)) by ring. rewrite N.
    unfold gp_a, gp_b. pose proof (Rle_0_sqr z) as Z2. unfold Rsqr in Z2. lra. }
  assert (BR : 0 < gp_b * R0) by (unfold gp_b; lra).
  assert (CB : 0 <= cos (th_of rE) <= p / R0).
  { rewrite C. split.
    - apply Rmult_le_pos; [unfold gp_b; lra|apply Rlt_le, Rinv_0_lt_compat; lra].
    - replace (p / R0) with (gp_b * p / (gp_b * R0)) by (unfold gp_b; field; lra). unfold Rdiv. apply Rmult_le_compat_l; [unfold gp_b; lra|].
      apply Rinv_le; lra. }
  set (c := cos (th_of rE)) in *. set (t := sin (th_of rE)) in *.
  assert (C1 : c <= 1) by apply COS_bound. assert (T1 : -1 <= t <= 1) by apply SIN_bound.
  assert (C3 : 0 <= c * c * c <= c). { assert (0 <= c * c <= 1) by nra. nra. }
  assert (PR : p / R0 <= p / 6300000). { unfold Rdiv. apply Rmult_le_compat_l; [lra|]. apply Rinv_le; lra. }
  assert (XB : 993 / 1000 * p <= X0 <= p).
  { unfold X0, latX_of. fold c p. unfold gp_a. assert (0 <= e2 * 6378137 <= 42800) by lra.
    assert (0 <= e2 * 6378137 * (c * c * c) <= 42800 * c) by (split; [apply Rmult_le_pos; lra|apply Rmult_le_compat; lra]). lra. }
  assert (YZ : exists g, 0 <= g <= 44000 / R0 /\ Y0 = z * (1 + g)).
  { exists (ep2 * gp_b * (t * t) * (gp_a / D)). assert (TT : 0 <= t * t <= 1) by nra.
    assert (GD : 0 <= gp_a / D <= 10034 / 10000 / R0).
    { split; [apply Rmult_le_pos; [unfold gp_a; lra|apply Rlt_le, Rinv_0_lt_compat; lra]|].
      apply Rle_trans with (gp_a / (gp_b * R0)); [unfold Rdiv; apply Rmult_le_compat_l; [unfold gp_a; lra|apply Rinv_le; lra]|].
      replace (gp_a / (gp_b * R0)) with (gp_a / gp_b * / R0) by (unfold gp_b; field; lra). unfold Rdiv at 2.
      apply Rmult_le_compat_r; [apply Rlt_le, Rinv_0_lt_compat; lra|unfold gp_a, gp_b; lra]. }
    assert (G1 : 0 <= ep2 * gp_b * (t * t) <= 43300).
    { unfold gp_b. assert (0 <= ep2 * 6356752.3141 <= 43300) by lra. split; [apply Rmult_le_pos; lra|]. nra. }
    split; [split|].
    - apply Rmult_le_pos; lra.
    - apply Rle_trans with (43300 * (10034 / 10000 / R0)); [apply Rmult_le_compat; lra|].
      unfold Rdiv. rewrite <- Rmult_assoc. apply Rmult_le_compat_r; [apply Rlt_le, Rinv_0_lt_compat|]; lra.
    - unfold Y0, latY_of. fold z t. rewrite S at 3. field. lra. }
  destruct YZ as (g & (G0 & G1) & YE). split; [exact XB|].
  assert (G2 : g <= 7 / 1000). { eapply Rle_trans; [exact G1|]. unfold Rdiv. assert (/ R0 <= / 6300000) by (apply Rinv_le; lra). lra. }
  assert (Y2 : Y0 * Y0 = z * z * ((1 + g) * (1 + g))) by (rewrite YE; ring).
  assert (GG : 1 <= (1 + g) * (1 + g) <= 1007 / 1000 * (1007 / 1000)) by nra.
  assert (ZZ : 0 <= z * z) by apply Rle_0_sqr. assert (X2 : 993 / 1000 * p * (993 / 1000 * p) <= X0 * X0 <= p * p) by nra.
  assert (YB : z * z <= Y0 * Y0 <= z * z * (1007 / 1000 * (1007 / 1000))) by (rewrite Y2; nra).
  assert (PP : 0 <= p * p) by apply Rle_0_sqr.
  split.
  - replace (1007 / 1000 * R0 * (1007 / 1000 * R0)) with (1007 / 1000 * (1007 / 1000) * (R0 * R0)) by ring. rewrite N. lra.
  - replace (993 / 1000 * R0 * (993 / 1000 * R0)) with (993 / 1000 * (993 / 1000) * (R0 * R0)) by ring. rewrite N. lra.
Qed.
Let lat := at2 latY latX.
Let lat0 := lat_of rE.
Lemma lat_ap : Rabs (lat - lat0) <= 65 * u.
Proof.
  pose proof p_range as P. destruct vec_range as (XB & _ & NB). pose proof X_ap as XA. pose proof Y_ap as YA. pose proof u64_bounds as U.
  assert (XP' : 0 < latX) by (apply Rabs_le_inv in XA; lra).
  assert (L : Rabs (atan2 latY latX - atan2 Y0 X0) <= 145 / 100 * (260000000 * u / (993 / 1000 * R0))) by (apply atan2_lip; auto; lra).
  assert (L' : 145 / 100 * (260000000 * u / (993 / 1000 * R0)) <= 61 * u).
  { unfold Rdiv at 2. assert (/ (993 / 1000 * R0) <= / (993 / 1000 * 6300000)) by (apply Rinv_le; lra).
    assert (260000000 * u * / (993 / 1000 * R0) <= 260000000 * u * / (993 / 1000 * 6300000)) by (apply Rmult_le_compat_l; lra). lra. }
  pose proof (proj1 HA latY latX ltac:(right; lra)) as H. unfold lat, lat0, lat_of. fold X0 Y0.
  pose proof (abs_tri _ _ _ _ _ H L). lra.
Qed.
Lemma cos_lat : 1 / 61 <= cos lat0 /\ p / cos lat0 <= 1015 / 1000 * R0.
Proof.
  pose proof p_range as P. destruct vec_range as (XB & NB & NL). destruct (atan2_polar Y0 X0 ltac:(left; lra)) as (C & _).
  unfold lat0, lat_of. fold X0 Y0. rewrite C. set (D := sqrt _). assert (DB : 0 < D <= 1007 / 1000 * R0).
  { split; [apply sqrt_lt_R0; nra|]. unfold D. rewrite <- (sqrt_square (1007 / 1000 * R0)) by lra. now apply sqrt_le_1_alt. }
  split.
  - apply Rle_trans with (993 / 1000 * p / (1007 / 1000 * (60 * p))).
    + replace (993 / 1000 * p / (1007 / 1000 * (60 * p))) with (993 / 60420) by (field; lra). lra.
    + unfold Rdiv at 1 4. apply Rmult_le_compat; [lra|apply Rlt_le, Rinv_0_lt_compat; lra|lra|apply Rinv_le; lra].
  - replace (p / (X0 / D)) with (p / X0 * D) by (field; lra). assert (PX : 0 <= p / X0 <= 1000 / 993).
    { split; [apply Rmult_le_pos; [lra|apply Rlt_le, Rinv_0_lt_compat; lra]|]. apply Rle_trans with (p / (993 / 1000 * p)).
      - unfold Rdiv at 1 2. apply Rmult_le_compat_l; [lra|]. apply Rinv_le; lra.
      - apply Req_le. field. lra. }
    apply Rle_trans with (1000 / 993 * (1007 / 1000 * R0)); [apply Rmult_le_compat; lra|lra].
Qed.

(** The altitude. *)
Let N0 := Nr lat0.
Let sh := r (1 - r (pow2 e * pow2 (fsin F lat))).
Let Nh := r (gp_a_f / r (sqrt sh)).
Lemma N_ap : ap Nh N0 236000000 6450000.
Proof.
  pose proof (N_err F HF pow2 HP lat) as H. pose proof (Nr_lipschitz lat0 lat) as L. pose proof lat_ap as A. pose proof (Nr_bounds lat0) as B.
  pose proof u64_bounds as U. split; [|unfold N0, gp_a in *; rewrite Rabs_right; lra].
  assert (L2 : Rabs (Nr lat - Nr lat0) <= 2900000 * u) by lra. pose proof (abs_tri _ _ _ _ _ H L2) as T. unfold N0. eapply Rle_trans; [exact T|lra].
Qed.
Lemma cos_h : fcos F lat <> 0 /\ ap (r (ph / fcos F lat)) (p / cos lat0) 74500000000 16750000.
Proof.
  pose proof cos_lat as (C & Q). pose proof p_range as P. pose proof (ap_cos2 _ _ _ lat_ap) as (CA & _). pose proof u64_bounds as U. pose proof (proj2 p_ap) as (PA & _).
  set (c := cos lat0) in *. set (c' := fcos F lat) in *. assert (C' : 1 / 62 <= c') by (apply Rabs_le_inv in CA; lra).
  split; [lra|]. assert (Q0 : 0 <= p / c) by (apply Rmult_le_pos; [lra|apply Rlt_le, Rinv_0_lt_compat; lra]).
  assert (D : Rabs (ph / c' - p / c) <= 74400000000 * u).
  { replace (ph / c' - p / c) with (((ph - p) - p / c * (c' - c)) * / c') by (field; lra).
    rewrite Rabs_mult, (Rabs_right (/ c')) by (apply Rle_ge, Rlt_le, Rinv_0_lt_compat; lra).
    assert (I : 0 <= / c' <= 62). { split; [apply Rlt_le, Rinv_0_lt_compat; lra|]. replace 62 with (/ (1 / 62)) by field. apply Rinv_le; lra. }
    assert (B : Rabs (ph - p - p / c * (c' - c)) <= 68000000 * u + 16750000 * (67 * u)).
    { unfold Rminus at 1. eapply Rle_trans; [apply Rabs_triang|]. rewrite Rabs_Ropp, Rabs_mult, (Rabs_right (p / c)) by lra.
      apply Rplus_le_compat; [exact PA|]. apply Rmult_le_compat; auto using Rabs_pos; lra. }
    apply Rle_trans with ((68000000 * u + 16750000 * (67 * u)) * 62); [apply Rmult_le_compat; auto using Rabs_pos; lra|lra]. }
  assert (A : ap (ph / c') (p / c) 74400000000 16750000) by (split; [exact D|rewrite Rabs_right; lra]).
  unfold r. al.
Qed.
Let alt := r (r (ph / fcos F lat) - Nh).
Lemma alt_ap : Rabs (alt - (p / cos lat0 - N0)) <= 1 / 100000.
Proof.
  pose proof (proj2 cos_h) as A. pose proof N_ap as B. assert (W : ap alt (p / cos lat0 - N0) 75000000000 24000000) by (unfold alt, r at 1; al).
  destruct W as (W & _). eapply Rle_trans; [exact W|]. rewrite u64_val. lra.
Qed.

(** The longitude: at most one turn apart, and only on the 180-degree meridian. *)
Lemma lon_ap : (y <> 0 \/ 0 < x -> Rabs (at2 y x - lon_of rE) <= 4 * u) /\
  exists k, (k = 0 \/ k = -1) /\ Rabs (at2 y x - (lon_of rE + 2 * PI * k)) <= 4 * u.
Proof.
  split; [apply HA|]. pose proof p_range as P.
  destruct (Req_dec y 0) as [Y|Y]; [destruct (Rlt_dec 0 x) as [X|X]|].
  - exists 0. split; [auto|]. rewrite Rmult_0_r, Rplus_0_r. apply HA. auto.
  - assert (X' : x < 0).
    { assert (x <> 0); [|lra]. intros E. assert (p = 0); [|lra]. unfold p, rho. fold x y. rewrite E, Y, Rmult_0_l, Rplus_0_l. apply sqrt_0. }
    assert (L : lon_of rE = PI).
    { unfold lon_of. fold x y. unfold atan2. destruct (Rlt_dec 0 x); [lra|]. destruct (Rlt_dec x 0); [|lra]. rewrite Y. destruct (Rlt_dec 0 0); [lra|].
      replace (0 / x) with 0 by (field; lra). rewrite atan_0. ring. }
    rewrite L, Y. pose proof (proj1 (proj2 HA) x X') as H. destruct (Rle_dec 0 (at2 0 x)) as [S|S].
    + exists 0. split; [auto|]. rewrite (Rabs_right (at2 0 x)) in H by lra. now rewrite Rmult_0_r, Rplus_0_r.
    + exists (-1). split; [auto|]. rewrite (Rabs_left (at2 0 x)) in H by lra. replace (at2 0 x - (PI + 2 * PI * -1)) with (- (- at2 0 x - PI)) by ring. now rewrite Rabs_Ropp.
  - exists 0. split; [auto|]. rewrite Rmult_0_r, Rplus_0_r. apply HA. auto.
Qed.
Lemma lla_f_eq : ecef2Lla_f F pow2 pow3 at2 rE = Ret (true, (lat, at2 y x, alt)).
Proof.
  unfold ecef2Lla_f. cbv zeta. fold x y z r. fold b.
  unfold sqrtc at 1. destruct (Rlt_dec _ 0) as [B|_]; [pose proof (q1_pos F HF pow2 HP) as W; cbv zeta in W; unfold r in B; lra|]. cbn [bind].
  fold qh. rewrite Rdivc_ok by apply qh_ap. cbn [bind].
  unfold sqrtc at 1. destruct (Rlt_dec _ 0) as [B|_]; [pose proof (proj1 ep_ap); lra|]. cbn [bind].
  fold s. unfold sqrtc at 1. destruct (Rlt_dec _ 0) as [B|_]; [pose proof (proj1 p_ap); lra|]. cbn [bind].
  fold ph th ep e latX latY lat.
  unfold sqrtc at 1. destruct (Rlt_dec _ 0) as [B|_]; [exfalso; exact (Rlt_not_le _ _ B (w_pos F HF pow2 HP lat))|]. cbn [bind].
  rewrite Rdivc_ok by (apply Rgt_not_eq; refine (Rlt_le_trans _ _ _ _ (proj1 (s_range F HF pow2 HP lat))); lra). cbn [bind].
  rewrite Rdivc_ok by exact (proj1 cos_h). cbn [bind].
  pose proof (proj2 (proj2 HA) y x) as L. fold r in L.
  assert (P1 : Rabs (r PI - PI) <= 4 * u).
  { pose proof (rnd_le F HF PI) as Q. fold r in Q. pose proof PI_bounds as PB. rewrite (Rabs_right PI) in Q by lra. pose proof u64_bounds. pose proof eta_u. nra. }
  assert (P2 : Rabs (r (2 * r PI) - 2 * r PI) <= 8 * u).
  { pose proof (rnd_le F HF (2 * r PI)) as Q. fold r in Q. pose proof PI_bounds as PB. pose proof u64_bounds. pose proof eta_u. apply Rabs_le_inv in P1.
    rewrite (Rabs_right (2 * r PI)) in Q by lra. nra. }
  pose proof PI_bounds as PB. pose proof u64_bounds as U. apply Rabs_le_inv in P1. apply Rabs_le_inv in P2.
  change (fmodc _ _) with (fmodc (at2 y x) (r (2 * r PI))). rewrite (fmodc_small (at2 y x) (r (2 * r PI))) by lra. cbn [bind]. destruct (Rlt_dec _ _) as [B|_]; [change (r PI < at2 y x) in B; apply Rabs_le_inv in L; lra|]. reflexivity.
Qed.
End Lla.

Lemma lla_float_close F pow2 pow3 at2 rE : float_ok F -> pow2_ok pow2 -> pow3_ok pow3 -> atan2_ok F at2 ->
  6300000 <= norm rE <= 16500000 -> norm rE <= 60 * sqrt (vx rE * vx rE + vy rE * vy rE) ->
  exists lat lon alt lat' lon' alt' k, ecef2Lla rE = Ret (true, (lat, lon, alt)) /\
    ecef2Lla_f F pow2 pow3 at2 rE = Ret (true, (lat', lon', alt')) /\
    Rabs (lat' - lat) <= 8 / 1000000000000000 /\ Rabs (alt' - alt) <= 1 / 100000 /\
    Rabs (lon' - (lon + 2 * PI * k)) <= 5 / 10000000000000000 /\ (k = 0 \/ k = -1 /\ vy rE = 0 /\ vx rE < 0).
Proof.
  intros HF HP HC HA HR HT. fold (rho rE) in HT.
  pose proof (cos_lat rE HR HT) as (C & _). pose proof (lla_f_eq F HF pow2 pow3 HP HC at2 HA rE HR HT) as E. cbv zeta in E.
  pose proof (lat_ap F HF pow2 pow3 HP HC at2 HA rE HR HT) as L. pose proof (alt_ap F HF pow2 pow3 HP HC at2 HA rE HR HT) as A. cbv zeta in L, A.
  pose proof (lon_ap F at2 HA rE HR HT) as (G1 & k & G2 & G3). pose proof u64_val as U.
  exists (lat_of rE), (lon_of rE), (rho rE / cos (lat_of rE) - Nr (lat_of rE)).
  destruct (Req_dec (vy rE) 0) as [Y|Y]; [destruct (Rlt_dec 0 (vx rE)) as [X|X]|].
  - do 3 eexists. exists 0. split; [apply ecef2Lla_ok; lra|]. split; [exact E|]. split; [lra|]. split; [exact A|].
    split; [|auto]. rewrite Rmult_0_r, Rplus_0_r. specialize (G1 ltac:(auto)). lra.
  - do 3 eexists. exists k. split; [apply ecef2Lla_ok; lra|]. split; [exact E|]. split; [lra|]. split; [exact A|].
    split; [lra|]. destruct G2 as [->|G2]; [auto|]. right. split; [exact G2|]. split; [exact Y|].
    assert (vx rE <> 0); [|lra]. intros Z. unfold rho in HT. rewrite Y, Z, Rmult_0_l, Rplus_0_l, sqrt_0 in HT. lra.
  - do 3 eexists. exists 0. split; [apply ecef2Lla_ok; lra|]. split; [exact E|]. split; [lra|]. split; [exact A|].
    split; [|auto]. rewrite Rmult_0_r, Rplus_0_r. specialize (G1 ltac:(auto)). lra.
Qed.
