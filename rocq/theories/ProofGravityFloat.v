(** Error analysis of the gravity models.  [ap x y k M]: [x] approximates [y]
    within [k] units of 2^-53, and [y] is at most [M] in size. *)
From Coq Require Import Reals ZArith Lra Lia Psatz.
From Flocq Require Import Core.
From Verif Require Import Base BaseVec SpecRot SpecEarth ModelGravity ModelDate ModelStrapdownFloat ModelFramesFloat
  ModelGravityFloat SpecFloatOps ProofVec ProofFrames ProofStrapdownFloat ProofStrapdownFloat2 ProofFramesFloat.
Open Scope R_scope.

Definition ap (x y k M : R) : Prop := Rabs (x - y) <= k * u /\ Rabs y <= M.
Definition e15 : R := 1 / 1000000000000000.
Definition e20 : R := 1 / 100000000000000000000.

Ltac num := unfold e15, e20; lra.
Lemma eta_e20 : eta64 <= e20 * u.
Proof.
  unfold eta64, u64, e20. apply Rle_trans with (bpow radix2 (-70) * bpow radix2 (-53)).
  - rewrite <- bpow_plus. apply bpow_le. lia.
  - apply Rmult_le_compat_r; [apply bpow_ge_0|]. cbn. lra.
Qed.
Lemma ap_pos x y k M : ap x y k M -> 0 <= k /\ 0 <= M.
Proof. intros (H1 & H2). pose proof u64_bounds. pose proof (Rabs_pos (x - y)). pose proof (Rabs_pos y). split; [|lra]. nra. Qed.
Lemma ap_le x y k M k' M' : ap x y k M -> k <= k' -> M <= M' -> ap x y k' M'.
Proof. intros (H1 & H2) A B. pose proof u64_bounds. split; [|lra]. nra. Qed.
Lemma ap_abs x y k M : ap x y k M -> Rabs x <= M + k * e15.
Proof.
  intros H. pose proof (ap_pos _ _ _ _ H). destruct H as (H1 & H2). pose proof (abs_near _ _ _ _ H1 H2).
  pose proof u64_bounds. assert (k * u <= k * e15) by (apply Rmult_le_compat_l; unfold e15; lra). lra.
Qed.
Lemma ap_exact y M : Rabs y <= M -> ap y y 0 M.
Proof. intros. split; [|auto]. rewrite Rminus_eq_0, Rabs_R0. lra. Qed.
Lemma ap_const y : 0 <= y -> ap y y 0 y.
Proof. intros. apply ap_exact. rewrite Rabs_right; lra. Qed.
Lemma ap_opp x y k M : ap x y k M -> ap (- x) (- y) k M.
Proof. intros (H1 & H2). split; [replace (- x - - y) with (- (x - y)) by ring|]; now rewrite Rabs_Ropp. Qed.
Lemma ap_add x y k M x' y' k' M' : ap x y k M -> ap x' y' k' M' -> ap (x + x') (y + y') (k + k') (M + M').
Proof.
  intros (H1 & H2) (H3 & H4). split.
  - replace (x + x' - (y + y')) with ((x - y) + (x' - y')) by ring. pose proof (Rabs_triang (x - y) (x' - y')). lra.
  - pose proof (Rabs_triang y y'). lra.
Qed.
Lemma ap_sub x y k M x' y' k' M' : ap x y k M -> ap x' y' k' M' -> ap (x - x') (y - y') (k + k') (M + M').
Proof. intros H1 H2. apply ap_opp in H2. unfold Rminus. now apply ap_add. Qed.
Lemma ap_mul x y k M x' y' k' M' : ap x y k M -> ap x' y' k' M' -> ap (x * x') (y * y') (k * (M' + k' * e15) + M * k') (M * M').
Proof.
  intros H1 H2. pose proof (ap_abs _ _ _ _ H2) as B. destruct (ap_pos _ _ _ _ H1). destruct H1 as (H1 & H1'), H2 as (H2 & H2'). split.
  - apply prod2; auto.
  - rewrite Rabs_mult. apply Rmult_le_compat; auto using Rabs_pos.
Qed.
(** Division, by a number at least [m] in size. *)
Lemma ap_div x y k M x' y' k' M' m : ap x y k M -> ap x' y' k' M' -> 0 < m -> m <= Rabs y' -> k' * e15 <= m / 1000 ->
  x' <> 0 /\ ap (x / x') (y / y') ((k + M / m * k') * (1002 / 1000 / m)) (M / m).
Proof.
  intros H1 H2 Hm Hy Hk. destruct (ap_pos _ _ _ _ H1) as (P1 & P2). destruct (ap_pos _ _ _ _ H2) as (P3 & P4).
  destruct H1 as (H1 & H1'), H2 as (H2 & H2'). pose proof u64_bounds as U.
  assert (KU : k' * u <= m / 1000). { eapply Rle_trans; [apply Rmult_le_compat_l; [lra|]|exact Hk]. unfold e15. lra. }
  assert (X : 999 / 1000 * m <= Rabs x').
  { pose proof (Rabs_triang (x') (y' - x')) as T. replace (x' + (y' - x')) with y' in T by ring. rewrite (Rabs_minus_sym y') in T. lra. }
  assert (X0 : x' <> 0) by (intros ->; rewrite Rabs_R0 in X; lra).
  assert (Y0 : y' <> 0) by (intros ->; rewrite Rabs_R0 in Hy; lra).
  assert (Q : Rabs (y / y') <= M / m).
  { unfold Rdiv. rewrite Rabs_mult, Rabs_Rinv by auto. apply Rmult_le_compat; auto using Rabs_pos.
    - apply Rlt_le, Rinv_0_lt_compat. lra.
    - apply Rinv_le; lra. }
  split; [exact X0|]. split; [|exact Q].
  replace (x / x' - y / y') with (((x - y) - y / y' * (x' - y')) * / x') by (field; auto).
  rewrite Rabs_mult, Rabs_Rinv by auto.
  replace ((k + M / m * k') * (1002 / 1000 / m) * u) with ((k * u + M / m * (k' * u)) * (1002 / 1000 / m)) by ring.
  apply Rmult_le_compat; auto using Rabs_pos.
  - apply Rlt_le, Rinv_0_lt_compat. lra.
  - unfold Rminus at 1. eapply Rle_trans; [apply Rabs_triang|]. rewrite Rabs_Ropp, Rabs_mult.
    assert (Rabs (y / y') * Rabs (x' - y') <= M / m * (k' * u)) by (apply Rmult_le_compat; auto using Rabs_pos). lra.
  - assert (/ Rabs x' <= / (999 / 1000 * m)) by (apply Rinv_le; lra).
    eapply Rle_trans; [eassumption|]. rewrite Rinv_mult_distr by lra. unfold Rdiv.
    apply Rmult_le_compat_r; [apply Rlt_le, Rinv_0_lt_compat; lra|lra].
Qed.
Section Float.
Variable F : FloatOps.
Hypothesis HF : float_ok F.
Variable pow2 : R -> R.
Hypothesis HP : pow2_ok pow2.
Lemma ap_rnd x y k M : ap x y k M -> ap (frnd F x) y (k * (1 + e15) + M + e20) M.
Proof.
  intros H. pose proof (ap_abs _ _ _ _ H) as A. destruct (ap_pos _ _ _ _ H) as (P1 & P2). destruct H as (H1 & H2). split; [|auto].
  pose proof (rnd_le F HF x) as R. pose proof (abs_tri _ _ _ _ _ R H1) as T. eapply Rle_trans; [exact T|].
  pose proof u64_bounds as U. pose proof eta_e20.
  assert (u * Rabs x <= u * (M + k * e15)) by (apply Rmult_le_compat_l; lra). lra.
Qed.
Lemma ap_pow2 x y k M : ap x y k M -> k <= 1000000000 ->
  ap (pow2 x) (y * y) (k * (2 * M + k * e15) + 3 * (M * M) + k * e20 + e20) (M * M).
Proof.
  intros H Hk. pose proof (ap_abs _ _ _ _ H) as A. destruct (ap_pos _ _ _ _ H) as (P1 & P2).
  destruct (ap_mul _ _ _ _ _ _ _ _ H H) as (B1 & B2). split; [|auto].
  pose proof (HP x) as R. pose proof (abs_tri _ _ _ _ _ R B1) as T. eapply Rle_trans; [exact T|].
  pose proof u64_bounds as U. pose proof eta_e20 as E.
  assert (X : x * x <= (M + k * e15) * (M + k * e15)).
  { pose proof (Rsqr_abs x) as Q. unfold Rsqr in Q. rewrite Q. pose proof (Rabs_pos x). apply Rmult_le_compat; lra. }
  assert (Y : 2 * u * (x * x) <= 2 * u * ((M + k * e15) * (M + k * e15))) by (apply Rmult_le_compat_l; lra).
  assert (Z : 2 * ((M + k * e15) * (M + k * e15)) <= 3 * (M * M) + k * e20).
  { set (d := k * e15). assert (D : 0 <= d) by (unfold d, e15; lra).
    assert (D2 : d * d * 6 <= k * e20). { unfold d, e15, e20. nra. }
    pose proof (Rle_0_sqr (M - 2 * d)) as S. unfold Rsqr in S. nra. }
  nra.
Qed.
Lemma ap_sqrt x y k M m : ap x y k M -> 0 < m -> m * m <= y -> M <= (M / m) * (M / m) -> k * e15 <= m * m ->
  0 <= x /\ ap (sqrt x) (sqrt y) (k / m) (M / m).
Proof.
  intros H Hm Hy HM Hk. destruct (ap_pos _ _ _ _ H) as (P1 & P2). destruct H as (H1 & H2). pose proof u64_bounds as U.
  assert (KU : k * u <= m * m). { eapply Rle_trans; [apply Rmult_le_compat_l; [lra|]|exact Hk]. unfold e15. lra. }
  assert (X : 0 <= x) by (apply Rabs_le_inv in H1; nra). split; [exact X|]. split; [apply sqrt2; auto|].
  rewrite Rabs_right by (apply Rle_ge, sqrt_pos). assert (D : 0 <= M / m).
  { unfold Rdiv. apply Rmult_le_pos; [lra|]. apply Rlt_le, Rinv_0_lt_compat, Hm. }
  rewrite <- (sqrt_square (M / m)) by exact D. apply sqrt_le_1_alt. apply Rabs_le_inv in H2. lra.
Qed.
Lemma ap_sin x : ap (fsin F x) (sin x) 2 1.
Proof. split; [apply HF|apply Rabs_le, SIN_bound]. Qed.
Lemma ap_cos x : ap (fcos F x) (cos x) 2 1.
Proof. split; [apply HF|apply Rabs_le, COS_bound]. Qed.
Lemma ap_f : ap (gp_f_f F) gp_f 1 (34 / 10000).
Proof. split; [apply f_err; auto|]. unfold gp_f. rewrite Rabs_right; lra. Qed.

(** Bound an expression built from operations, given its leaves. *)
Ltac bnd := lazymatch goal with
  | H : ap ?x ?y _ _ |- ap ?x ?y _ _ => exact H
  | |- ap (fsin _ _) _ _ _ => apply ap_sin
  | |- ap (fcos _ _) _ _ _ => apply ap_cos
  | |- ap (frnd _ _) _ _ _ => eapply ap_rnd; bnd
  | |- ap (pow2 _) (_ * _) _ _ => eapply ap_pow2; [bnd|num]
  | |- ap (_ * _) (_ * _) _ _ => eapply ap_mul; [bnd|bnd]
  | |- ap (_ + _) (_ + _) _ _ => eapply ap_add; [bnd|bnd]
  | |- ap (_ - _) (_ - _) _ _ => eapply ap_sub; [bnd|bnd]
  | |- ap (- _) (- _) _ _ => eapply ap_opp; bnd
  | |- ap ?x ?x _ _ => apply ap_const; lra end.
Ltac au := eapply ap_le; [bnd| |]; num.

Lemma apM x y k M M' : ap x y k M -> Rabs y <= M' -> ap x y k M'.
Proof. intros (A & _) B. now split. Qed.

Lemma ap_b : ap (gp_b_f F) gp_b 6400000 6356753.
Proof. unfold gp_b_f, gp_b. au. Qed.
Lemma ap_kM : ap (gp_kM_f F) gp_kM 1000000000000000 400000000000000.
Proof. unfold gp_kM_f, gp_kM. au. Qed.
Lemma ap_wE : ap (gp_wE_f F) gp_wE (3 / 10000) (8 / 100000).
Proof. unfold gp_wE_f, gp_wE. au. Qed.
Lemma ap_gEq : ap (gp_gEq_f F) gp_gEq (979 / 100) (979 / 100).
Proof. unfold gp_gEq_f, gp_gEq. au. Qed.
Lemma ap_gPole : ap (gp_gPole_f F) gp_gPole (984 / 100) (984 / 100).
Proof. unfold gp_gPole_f, gp_gPole. au. Qed.
Lemma ap_a : ap gp_a_f gp_a 0 6378137.
Proof. unfold gp_a_f, gp_a. au. Qed.

Variable lat h : R.
Let r := frnd F.
Let m0 := gp_wE * gp_wE * (gp_a * gp_a) * gp_b / gp_kM.
Let numh := r (r (r (gp_a_f * gp_gEq_f F) * pow2 (fcos F lat)) + r (r (gp_b_f F * gp_gPole_f F) * pow2 (fsin F lat))).
Let num0 := gp_a * gp_gEq * (cos lat * cos lat) + gp_b * gp_gPole * (sin lat * sin lat).
Let dh := r (r (pow2 gp_a_f * pow2 (fcos F lat)) + r (pow2 (gp_b_f F) * pow2 (fsin F lat))).
Let d0 := gp_a * gp_a * (cos lat * cos lat) + gp_b * gp_b * (sin lat * sin lat).

Lemma m_ap : gp_kM_f F <> 0 /\
  ap (r (r (pow2 (gp_wE_f F) * pow2 gp_a_f) * gp_b_f F) / gp_kM_f F) m0 (2 / 10) (1 / 100).
Proof.
  pose proof ap_b. pose proof ap_kM as K. pose proof ap_wE. pose proof ap_a.
  assert (X : ap (r (r (pow2 (gp_wE_f F) * pow2 gp_a_f) * gp_b_f F)) (gp_wE * gp_wE * (gp_a * gp_a) * gp_b) 40000000000000 2000000000000) by (unfold r; au).
  destruct (ap_div _ _ _ _ _ _ _ _ 398000000000000 X K) as (N & D); [lra|unfold gp_kM; rewrite Rabs_right; lra|num|].
  split; [exact N|]. eapply ap_le; [exact D|lra|lra].
Qed.
Lemma num_ap : ap numh num0 2000000000 125000000.
Proof. pose proof ap_b. pose proof ap_a. pose proof ap_gEq. pose proof ap_gPole. unfold numh, num0, r. au. Qed.
Lemma d_ap : ap dh d0 1200000000000000 82000000000000.
Proof. pose proof ap_b. pose proof ap_a. unfold dh, d0, r. au. Qed.
Lemma cs_sq : cos lat * cos lat = 1 - sin lat * sin lat.
Proof. pose proof (sin2_cos2 lat). unfold Rsqr in *. lra. Qed.
Lemma num0_range : 62000000 <= num0 <= 62600000.
Proof.
  unfold num0, gp_a, gp_gEq, gp_b, gp_gPole. rewrite cs_sq. pose proof (sin_sq lat). set (t := sin lat * sin lat) in *. lra.
Qed.
Lemma d0_range : 6350000 * 6350000 <= d0 <= 40700000000000.
Proof.
  unfold d0, gp_a, gp_b. rewrite cs_sq. pose proof (sin_sq lat). set (t := sin lat * sin lat) in *. lra.
Qed.
Lemma sqrt_ap : 0 <= dh /\ ap (r (sqrt dh)) (sqrt d0) 197000000 6410000.
Proof.
  pose proof d0_range as D. assert (A : ap dh d0 1200000000000000 40700000000000) by (eapply apM; [apply d_ap|rewrite Rabs_right; lra]).
  destruct (ap_sqrt _ _ _ _ 6350000 A) as (P & S);
    [lra|lra|lra|num|].
  split; [exact P|]. unfold r. au.
Qed.
Lemma sd0 : 6350000 <= sqrt d0.
Proof. rewrite <- (sqrt_square 6350000) by lra. apply sqrt_le_1_alt, d0_range. Qed.
Lemma g_ap : r (sqrt dh) <> 0 /\ ap (r (numh / r (sqrt dh))) (num0 / sqrt d0) 640 (986 / 100).
Proof.
  pose proof num0_range as N. pose proof sd0 as S.
  assert (A : ap numh num0 2000000000 62600000) by (eapply apM; [apply num_ap|rewrite Rabs_right; lra]).
  destruct (ap_div _ _ _ _ _ _ _ _ 6350000 A (proj2 sqrt_ap)) as (Z & D);
    [lra|rewrite Rabs_right; lra|num|].
  split; [exact Z|]. unfold r at 1. au.
Qed.
Hypothesis Hh : Rabs h <= 1000000.
Lemma q_ap : pow2 gp_a_f <> 0 /\ ap (r (r (3 * pow2 h) / pow2 gp_a_f)) (3 * (h * h) / (gp_a * gp_a)) (7 / 10) (75 / 1000).
Proof.
  pose proof ap_a. pose proof (ap_exact h _ Hh).
  assert (A1 : ap (r (3 * pow2 h)) (3 * (h * h)) 13000000000000 3000000000000) by (unfold r; au).
  assert (A2 : ap (pow2 gp_a_f) (gp_a * gp_a) 123000000000000 40700000000000) by au.
  destruct (ap_div _ _ _ _ _ _ _ _ 40600000000000 A1 A2) as (Z & D); [lra|unfold gp_a; rewrite Rabs_right; lra|num|].
  split; [exact Z|]. unfold r at 1. au.
Qed.
Lemma down_ap : ap (r (r (numh / r (sqrt dh)) *
    r (r (1 - r (r (r (2 / gp_a_f) * r (r (r (1 + gp_f_f F) + r (r (r (pow2 (gp_wE_f F) * pow2 gp_a_f) * gp_b_f F) / gp_kM_f F))
       - r (r (2 * gp_f_f F) * pow2 (fsin F lat)))) * h)) + r (r (3 * pow2 h) / pow2 gp_a_f))))
  (num0 / sqrt d0 * (1 - 2 / gp_a * (1 + gp_f + m0 - 2 * gp_f * (sin lat * sin lat)) * h + 3 * (h * h) / (gp_a * gp_a))) 1200 14.
Proof.
  pose proof (proj2 g_ap) as A1. pose proof (proj2 q_ap) as A2. pose proof (proj2 m_ap) as A3. pose proof ap_f as A4.
  pose proof (ap_exact h _ Hh) as A5.
  assert (A6 : ap (2 / gp_a_f) (2 / gp_a) 0 (32 / 100000000)).
  { unfold gp_a_f, gp_a. eapply ap_le; [apply ap_const; lra|lra|lra]. }
  clearbody numh dh num0 d0 m0. unfold r in *.
  assert (B1 : ap (frnd F (frnd F (frnd F (1 + gp_f_f F) + frnd F (frnd F (frnd F (pow2 (gp_wE_f F) * pow2 gp_a_f) * gp_b_f F) / gp_kM_f F)) - frnd F (frnd F (2 * gp_f_f F) * pow2 (fsin F lat))))
    (1 + gp_f + m0 - 2 * gp_f * (sin lat * sin lat)) 8 (103 / 100)) by (clear A1 A2 A5 A6; au).
  clear A3 A4. set (B := frnd F (_ - frnd F (frnd F (2 * gp_f_f F) * _))) in *. set (b := 1 + gp_f + _ - _) in *. clearbody B b.
  assert (B2 : ap (frnd F (1 - frnd F (frnd F (frnd F (2 / gp_a_f) * B) * h))) (1 - 2 / gp_a * b * h) 8 (133 / 100)) by (clear A1 A2; au).
  clear B1 A5 A6. set (C := frnd F (1 - _)) in *. set (c := 1 - 2 / gp_a * b * h) in *. clearbody C c.
  assert (B3 : ap (frnd F (C + frnd F (frnd F (3 * pow2 h) / pow2 gp_a_f))) (c + 3 * (h * h) / (gp_a * gp_a)) 11 (1405 / 1000)) by (clear A1; au).
  clear B2 A2. set (D := frnd F (C + _)) in *. set (d := c + 3 * (h * h) / (gp_a * gp_a)) in *. clearbody D d. au.
Qed.
Hypothesis Hl : Rabs lat <= PI / 2.
Lemma north_ap : ap (r (r (r (r (- (808 / 100)) * r (1 / 1000000)) * r (h / 1000)) * fsin F (r (2 * lat))))
  (- (808 / 100) * (1 / 1000000) * (h / 1000) * sin (2 * lat)) 1 1.
Proof.
  pose proof PI_4 as P. pose proof PI_RGT_0 as P0. pose proof (ap_exact lat 2 ltac:(lra)) as A1.
  assert (A2 : ap (r (2 * lat)) (2 * lat) 5 4) by (unfold r; au).
  assert (A3 : ap (fsin F (r (2 * lat))) (sin (2 * lat)) 7 1).
  { split; [|apply Rabs_le, SIN_bound]. destruct A2 as (A2 & _).
    pose proof (abs_tri _ _ _ _ _ (proj1 (proj2 (proj2 HF)) (r (2 * lat))) (Rle_trans _ _ _ (sin_lip _ _) A2)). lra. }
  assert (A4 : ap (h / 1000) (h / 1000) 0 1000).
  { apply ap_exact. apply Rabs_le_inv in Hh. apply Rabs_le. lra. }
  clear A1 A2. unfold r in *. au.
Qed.
End Float.

Lemma gravity_float F pow2 lat h : float_ok F -> pow2_ok pow2 -> Rabs lat <= PI / 2 -> Rabs h <= 1000000 ->
  exists g g', gravityNed lat h = Ret (true, g) /\ gravityNed_f F pow2 lat h = Ret (true, g') /\
    Rabs (vx g' - vx g) <= 2 / 10000000000000 /\ vy g' = 0 /\ vy g = 0 /\ Rabs (vz g' - vz g) <= 2 / 10000000000000.
Proof.
  intros HF HP Hl Hh. unfold gravityNed, gravityNed_f. cbv zeta.
  pose proof (d0_range lat) as D. pose proof (sd0 lat) as S. cbv zeta in D, S.
  rewrite Rdivc_ok by apply (m_ap F HF pow2 HP). cbn [bind].
  unfold sqrtc. destruct (Rlt_dec _ 0) as [X|_]; [lra|]. cbn [bind]. rewrite Rdivc_ok by lra. cbn [bind].
  destruct (Rlt_dec _ 0) as [X|_]; [pose proof (proj1 (sqrt_ap F HF pow2 HP lat)) as Y; cbv zeta in Y; lra|]. cbn [bind].
  rewrite Rdivc_ok by apply (g_ap F HF pow2 HP lat). cbn [bind].
  rewrite Rdivc_ok by apply (q_ap F HF pow2 HP h Hh). cbn [bind].
  do 2 eexists. split; [reflexivity|]. split; [reflexivity|]. cbn [vx vy vz].
  assert (U : 1200 * u <= 2 / 10000000000000) by (rewrite u64_val; lra). pose proof u64_bounds.
  split; [|split; [reflexivity|split; [reflexivity|]]].
  - eapply Rle_trans; [apply (proj1 (north_ap F HF lat h Hh Hl))|lra].
  - eapply Rle_trans; [apply (proj1 (down_ap F HF pow2 HP lat h Hh))|exact U].
Qed.

(** ** Point mass *)
Lemma eta_e50 : eta64 <= u * / 100000000000000000000000000000000000000000000000000.
Proof.
  unfold eta64, u64. apply Rle_trans with (bpow radix2 (-53) * bpow radix2 (-170)).
  - rewrite <- bpow_plus. apply bpow_le. lia.
  - apply Rmult_le_compat_l; [apply bpow_ge_0|]. cbn. lra.
Qed.
Section Point.
Variable F : FloatOps.
Hypothesis HF : float_ok F.
Variable d : vec3.
Hypothesis Hn : 1000 <= norm d <= 1000000000000.
Let n := norm d.
Let q := fdot F d d / (n * n).
Let r := frnd F.
Lemma n_pos : 0 < n. Proof. unfold n. lra. Qed.
Lemma q_ap1 : fdot F d d = n * n * q /\ ap q 1 5 1.
Proof.
  pose proof n_pos as N. assert (N2 : 1000000 <= n * n) by (unfold n in *; nra). pose proof eta_e20 as E. pose proof u64_bounds as U.
  split; [unfold q; field; lra|]. split; [|rewrite Rabs_R1; lra].
  pose proof (proj1 (proj2 HF) d d) as H. rewrite !(Rabs_right (_ * _)) in H by (apply Rle_ge, Rle_0_sqr).
  replace (vx d * vx d + vy d * vy d + vz d * vz d) with (n * n) in H by (unfold n; rewrite norm_sq; reflexivity).
  replace (dot d d) with (n * n) in H by (unfold n; apply norm_sq).
  replace (q - 1) with ((fdot F d d - n * n) * / (n * n)) by (unfold q; field; lra).
  rewrite Rabs_mult, (Rabs_right (/ _)) by (apply Rle_ge, Rlt_le, Rinv_0_lt_compat; lra).
  apply Rmult_le_reg_r with (n * n); [lra|]. rewrite Rmult_assoc, Rinv_l, Rmult_1_r by lra.
  eapply Rle_trans; [exact H|]. unfold e20 in E. nra.
Qed.
(** Rounding of a scaled value. *)
Lemma rnd_scaled k x y e M : 0 < k -> / 1000000000000000000000000000000 <= k -> ap x y e M -> 1 <= M ->
  Rabs (r (k * x) - k * y) <= (e * (1 + e15) + M + M * e15) * u * k.
Proof.
  intros K0 K1 A0 Y. pose proof (ap_abs _ _ _ _ A0) as X. destruct A0 as (H & HM). pose proof u64_bounds as U. pose proof eta_e50 as E. pose proof (rnd_le F HF (k * x)) as R.
  assert (T : Rabs (k * x - k * y) <= e * u * k).
  { rewrite <- Rmult_minus_distr_l, Rabs_mult, (Rabs_right k) by lra. nra. }
  pose proof (abs_tri _ _ _ _ _ R T) as A. eapply Rle_trans; [exact A|].
  rewrite Rabs_mult, (Rabs_right k) by lra.
  assert (P : u * (k * Rabs x) <= u * (k * (M + e * e15))).
  { apply Rmult_le_compat_l; [lra|]. apply Rmult_le_compat_l; lra. }
  assert (Q : eta64 <= M * e15 * u * k).
  { eapply Rle_trans; [exact E|]. apply Rle_trans with (1 * e15 * u * / 1000000000000000000000000000000); [unfold e15; lra|].
    apply Rmult_le_compat; try lra; [unfold e15; nra|].
    apply Rmult_le_compat_r; [lra|]. apply Rmult_le_compat_r; [unfold e15; lra|exact Y]. }
  replace ((e * (1 + e15) + M + M * e15) * u * k) with (u * (k * (M + e * e15)) + M * e15 * u * k + e * u * k) by ring. lra.
Qed.
Lemma nh_ap : 0 <= fdot F d d /\ exists s, r (sqrt (fdot F d d)) = n * s /\ ap s 1 7 1.
Proof.
  destruct q_ap1 as (E & A). pose proof n_pos as N.
  destruct (ap_sqrt q 1 5 1 1 A) as (Q & S); [lra|lra|lra|num|].
  split; [rewrite E; apply Rmult_le_pos; nra|].
  exists (r (sqrt (fdot F d d)) / n). split; [field; lra|].
  assert (Z : sqrt (fdot F d d) = n * sqrt q).
  { rewrite E, sqrt_mult by nra. rewrite sqrt_square by lra. reflexivity. }
  rewrite Z. rewrite sqrt_1 in S. destruct S as (S1 & S2). split; [|rewrite Rabs_R1; lra].
  assert (L := rnd_scaled n (sqrt q) 1 _ _ N ltac:(unfold n in *; lra) (conj S1 S2) ltac:(lra)).
  replace (r (n * sqrt q) / n - 1) with ((r (n * sqrt q) - n * 1) * / n) by (field; lra).
  rewrite Rabs_mult, (Rabs_right (/ n)) by (apply Rle_ge, Rlt_le, Rinv_0_lt_compat; lra).
  apply Rmult_le_reg_r with n; [lra|]. rewrite Rmult_assoc, Rinv_l, Rmult_1_r by lra.
  eapply Rle_trans; [exact L|]. apply Rmult_le_compat_r; [lra|]. pose proof u64_bounds. apply Rmult_le_compat_r; [lra|num].
Qed.
Lemma gm_ap : ap (r (- gp_G_f F * gp_mE_f F)) (- gp_G * gp_mE) 3200000000000000 400000000000000.
Proof.
  unfold gp_G_f, gp_mE_f, gp_G, gp_mE, r. set (rr := frnd F).
  assert (A1 : ap (rr (1 / 100000000000)) (1 / 100000000000) (2 / 100000000000) (1 / 100000000000)).
  { eapply ap_le; [eapply (ap_rnd F HF), ap_const; lra| |]; num. }
  assert (A2 : ap (rr (6674 / 1000)) (6674 / 1000) (6675 / 1000) (6674 / 1000)).
  { eapply ap_le; [eapply (ap_rnd F HF), ap_const; lra| |]; num. }
  assert (A3 : ap (rr (5972 / 1000)) (5972 / 1000) (5973 / 1000) (5972 / 1000)).
  { eapply ap_le; [eapply (ap_rnd F HF), ap_const; lra| |]; num. }
  assert (A4 : ap (rr 1000000000000000000000000) 1000000000000000000000000 1000000000000000000000001 1000000000000000000000000).
  { eapply ap_le; [eapply (ap_rnd F HF), ap_const; lra| |]; num. }
  eapply ap_le; [eapply (ap_rnd F HF), ap_mul; [apply ap_opp; eapply (ap_rnd F HF), ap_mul; [exact A2|exact A1]|
    eapply (ap_rnd F HF), ap_mul; [exact A3|exact A4]]| |]; num.
Qed.
Let GM := gp_G * gp_mE.
Lemma GM_val : 398000000000000 <= GM <= 399000000000000.
Proof. unfold GM, gp_G, gp_mE. lra. Qed.
Lemma k_ap : fdot F d d <> 0 /\ exists kap, r (r (- gp_G_f F * gp_mE_f F) / fdot F d d) = / (n * n) * kap /\
  ap kap (- GM) 5700000000000000 400000000000000.
Proof.
  destruct q_ap1 as (E & A). pose proof n_pos as N. assert (N2 : 1000000 <= n * n) by (unfold n in *; nra).
  assert (N3 : n * n <= 1000000000000000000000000) by (unfold n in *; nra).
  pose proof u64_bounds as U. pose proof gm_ap as G. pose proof GM_val as GV.
  replace (- gp_G * gp_mE) with (- GM) in G by (unfold GM; ring). set (gh := r (- gp_G_f F * gp_mE_f F)) in *. clearbody gh GM.
  destruct (ap_div _ _ _ _ _ _ _ _ 1 G A) as (Q0 & D); [lra|rewrite Rabs_R1; lra|num|].
  replace (- GM / 1) with (- GM) in D by field.
  assert (K0 : / 1000000000000000000000000000000 <= / (n * n)) by (apply Rinv_le; lra).
  assert (KP : 0 < / (n * n)) by (apply Rinv_0_lt_compat; lra).
  split; [rewrite E; apply Rmult_integral_contrapositive_currified; lra|].
  exists (n * n * r (gh / fdot F d d)). split; [field; lra|]. split; [|rewrite Rabs_Ropp, Rabs_right; lra].
  assert (L := rnd_scaled _ _ _ _ _ KP K0 D ltac:(lra)).
  replace (gh / fdot F d d) with (/ (n * n) * (gh / q)) by (rewrite E; field; split; first [exact Q0|lra]).
  set (z := r (/ (n * n) * (gh / q))) in *.
  replace (n * n * z - - GM) with ((n * n) * (z - / (n * n) * - GM)) by (field; lra).
  rewrite Rabs_mult, (Rabs_right (n * n)) by lra.
  match type of L with _ <= ?e * u * _ => apply Rle_trans with (n * n * (e * u * / (n * n))) end; [apply Rmult_le_compat_l; lra|].
  match goal with |- n * n * (?e * u * / (n * n)) <= _ => replace (n * n * (e * u * / (n * n))) with (e * u) by (field; lra) end.
  apply Rmult_le_compat_r; [lra|num].
Qed.
Lemma comp_ap x : Rabs x <= n -> r (sqrt (fdot F d d)) <> 0 /\ ap (r (x / r (sqrt (fdot F d d)))) (x / n) 9 1.
Proof.
  intros Hx. destruct nh_ap as (_ & s & E & A). pose proof n_pos as N. rewrite E.
  assert (X : ap (x / n) (x / n) 0 1).
  { apply ap_exact. unfold Rdiv. rewrite Rabs_mult, (Rabs_right (/ n)) by (apply Rle_ge, Rlt_le, Rinv_0_lt_compat; lra).
    apply Rmult_le_reg_r with n; [lra|]. rewrite Rmult_assoc, Rinv_l by lra. lra. }
  destruct (ap_div _ _ _ _ _ _ _ _ 1 X A) as (S0 & D); [lra|rewrite Rabs_R1; lra|num|].
  split; [apply Rmult_integral_contrapositive_currified; lra|].
  replace (x / n / 1) with (x / n) in D by (field; lra). replace (x / n / s) with (x / (n * s)) in D by (field; split; first [exact S0|lra]).
  eapply ap_le; [eapply (ap_rnd F HF), D|num|num].
Qed.
Lemma prod_ap x : Rabs x <= n ->
  Rabs (r (r (r (- gp_G_f F * gp_mE_f F) / fdot F d d) * r (x / r (sqrt (fdot F d d)))) - (- GM / (n * n)) * (x / n)) <= 25 * u * (GM / (n * n)).
Proof.
  intros Hx. destruct k_ap as (_ & kap & E & A). destruct (comp_ap x Hx) as (_ & B). rewrite E. pose proof n_pos as N.
  assert (N2 : 1000000 <= n * n) by (unfold n in *; nra).
  assert (N3 : n * n <= 1000000000000000000000000) by (unfold n in *; nra).
  pose proof u64_bounds as U. pose proof GM_val as GV. clearbody GM.
  assert (K0 : / 1000000000000000000000000000000 <= / (n * n)) by (apply Rinv_le; lra).
  assert (KP : 0 < / (n * n)) by (apply Rinv_0_lt_compat; lra).
  pose proof (ap_mul _ _ _ _ _ _ _ _ A B) as P.
  assert (L := rnd_scaled _ _ _ _ _ KP K0 P ltac:(lra)).
  rewrite <- Rmult_assoc in L. replace (- GM / (n * n) * (x / n)) with (/ (n * n) * (- GM * (x / n))) by (field; lra).
  eapply Rle_trans; [exact L|]. replace (25 * u * (GM / (n * n))) with (25 * GM * u * / (n * n)) by (field; lra).
  apply Rmult_le_compat_r; [lra|]. apply Rmult_le_compat_r; [lra|]. num.
Qed.
Lemma simple_float : exists g g', simpleGravity d = Ret (true, g) /\ simpleGravity_f F d = Ret (true, g') /\
  norm (vsub g' g) <= 50 * u * norm g.
Proof.
  pose proof n_pos as N. pose proof GM_val as GV. pose proof u64_bounds as U.
  assert (D0 : dot d d = n * n) by (unfold n; symmetry; apply norm_sq).
  destruct (comp_le d) as (X & Y & Z). fold n in X, Y, Z.
  unfold simpleGravity, simpleGravity_f. cbv zeta. fold r. fold n. rewrite D0.
  rewrite Rdivc_ok by nra. cbn [bind]. rewrite !Rdivc_ok by lra. cbn [bind].
  rewrite Rdivc_ok by apply k_ap. cbn [bind]. unfold sqrtc. destruct (Rlt_dec _ 0) as [V|_]; [pose proof (proj1 nh_ap); lra|]. cbn [bind].
  rewrite !Rdivc_ok by apply (comp_ap _ X). cbn [bind].
  do 2 eexists. split; [reflexivity|]. split; [reflexivity|].
  assert (NG : norm (vscale (- gp_G * gp_mE / (n * n)) (V3 (vx d / n) (vy d / n) (vz d / n))) = GM / (n * n)).
  { replace (V3 (vx d / n) (vy d / n) (vz d / n)) with (vscale (/ n) d) by (destruct d; unfold vscale; cbn; f_equal; field; lra).
    rewrite !norm_scale. fold n. rewrite (Rabs_right (/ n)) by (apply Rle_ge, Rlt_le, Rinv_0_lt_compat; lra).
    rewrite Rinv_l, Rmult_1_r by lra. replace (- gp_G * gp_mE / (n * n)) with (- (GM / (n * n))) by (unfold GM; field; lra).
    rewrite Rabs_Ropp, Rabs_right; [reflexivity|]. apply Rle_ge. unfold Rdiv. apply Rmult_le_pos; [lra|]. apply Rlt_le, Rinv_0_lt_compat. nra. }
  rewrite NG. set (gm := GM / (n * n)) in *.
  assert (GP : 0 <= gm). { unfold gm, Rdiv. apply Rmult_le_pos; [lra|]. apply Rlt_le, Rinv_0_lt_compat. nra. }
  match goal with |- norm ?w <= _ => assert (W := norm_small w (25 * u * gm)); assert (W0 := norm_nonneg w) end.
  specialize (W ltac:(unfold small; cbn [vx vy vz vsub vscale]; replace (- gp_G * gp_mE / (n * n)) with (- GM / (n * n)) by (unfold GM; field; lra);
    repeat split; now apply prod_ap)).
  assert (UG : 0 <= u * gm) by nra. nra.
Qed.
End Point.

(** Without rounding errors the computations are the exact ones. *)
Lemma gravity_exact lat h : gravityNed_f exact_ops (fun x => x * x) lat h = gravityNed lat h.
Proof.
  unfold gravityNed_f, gravityNed. cbn [exact_ops frnd fdot fsin fcos].
  rewrite Rdivc_ok by (unfold gp_kM_f; cbn; lra). cbn [bind].
  pose proof (d0_range lat) as D. pose proof (sd0 lat) as S. cbv zeta in D, S.
  unfold gp_a_f, gp_b_f, gp_f_f, gp_gEq_f, gp_gPole_f, gp_kM_f, gp_wE_f. cbn [exact_ops frnd].
  fold gp_a. fold gp_b. fold gp_gEq. fold gp_gPole. fold gp_wE. fold gp_kM. fold gp_f.
  rewrite sqrtc_ok by lra. cbn [bind]. rewrite Rdivc_ok by lra. cbn [bind]. rewrite Rdivc_ok by (unfold gp_a; lra). reflexivity.
Qed.
Lemma simple_exact d : simpleGravity_f exact_ops d = simpleGravity d.
Proof.
  unfold simpleGravity_f, simpleGravity, gp_G_f, gp_mE_f. cbn [exact_ops frnd fdot].
  fold gp_G. fold gp_mE. destruct (Req_dec (dot d d) 0) as [E|E].
  - rewrite E. now rewrite Rdivc_0.
  - rewrite !Rdivc_ok by exact E. cbn [bind]. unfold sqrtc. destruct (Rlt_dec _ 0) as [X|_].
    + pose proof (dot_nonneg d). lra.
    + cbn [bind]. fold (norm d). reflexivity.
Qed.
