(** Rounding errors of the filter with one state and one measurement. *)
From Coq Require Import Reals ZArith List Lra Lia Psatz.
From Flocq Require Import Core Relative.
From Verif Require Import Base ModelDate ModelKalmanFloat SpecFloatOps SpecKalmanFloat ProofVec ProofStrapdownFloat ProofDate.
Import ListNotations.
Open Scope R_scope.

(** [re x y k]: x is y up to k relative units of 2^-53. *)
Definition re (x y k : R) : Prop := exists d, x = y * (1 + d) /\ Rabs d <= k * u64.
Definition ge (m : Z) (x : R) : Prop := bpow radix2 m <= Rabs x.
Definition slack : R := 1 / 1000000.

Lemma ku k : 0 <= k <= 1000 -> k * u64 <= 1 / 1000000000000.
Proof. intros K. pose proof u64_bounds. apply Rle_trans with (1000 * (1 / 1000000000000000)); [apply Rmult_le_compat; lra|lra]. Qed.
Lemma re_pos x y k : re x y k -> 0 <= k.
Proof. intros (d & _ & H). pose proof (Rabs_pos d). pose proof u64_bounds. nra. Qed.
Lemma re_le x y k k' : re x y k -> k <= k' -> re x y k'.
Proof. intros (d & E & H) L. exists d. split; auto. pose proof u64_bounds. nra. Qed.
Lemma re_refl x : re x x 0.
Proof. exists 0. split; [ring|]. rewrite Rabs_R0. lra. Qed.
Lemma comp d e k j : Rabs d <= k * u64 -> Rabs e <= j * u64 -> 0 <= k <= 1000 -> 0 <= j <= 1000 ->
  Rabs (d + e + d * e) <= (k + j + slack) * u64.
Proof.
  intros A B K J. pose proof u64_bounds as U. pose proof (Rabs_triang (d + e) (d * e)) as T. pose proof (Rabs_triang d e) as T2. rewrite Rabs_mult in T.
  assert (Rabs d * Rabs e <= (k * u64) * (j * u64)) by (apply Rmult_le_compat; auto using Rabs_pos).
  assert (X : k * j <= 1000000) by nra. assert (Y : u64 * (k * j) <= slack) by (unfold slack; nra).
  assert ((k * u64) * (j * u64) <= slack * u64) by (replace ((k * u64) * (j * u64)) with ((u64 * (k * j)) * u64) by ring; apply Rmult_le_compat_r; lra).
  lra.
Qed.
Lemma re_mul x y k x' y' k' : re x y k -> re x' y' k' -> k <= 1000 -> k' <= 1000 -> re (x * x') (y * y') (k + k' + slack).
Proof.
  intros H H' K K'. pose proof (re_pos _ _ _ H). pose proof (re_pos _ _ _ H'). destruct H as (d & -> & D), H' as (e & -> & E).
  exists (d + e + d * e). split; [ring|]. apply comp; auto; lra.
Qed.
Lemma re_add x y k x' y' : re x y k -> re x' y' k -> 0 <= y -> 0 <= y' -> re (x + x') (y + y') k.
Proof.
  intros (d & -> & D) (e & -> & E) Y Y'. pose proof u64_bounds as U. destruct (Req_dec (y + y') 0) as [Z|Z].
  - assert (y = 0) by lra. assert (y' = 0) by lra. subst. exists d. split; [ring|auto].
  - exists ((y * d + y' * e) / (y + y')). split; [field; auto|].
    unfold Rdiv. rewrite Rabs_mult, (Rabs_right (/ _)) by (apply Rle_ge, Rlt_le, Rinv_0_lt_compat; lra).
    apply Rmult_le_reg_r with (y + y'); [lra|]. rewrite Rmult_assoc, Rinv_l, Rmult_1_r by auto.
    pose proof (Rabs_triang (y * d) (y' * e)). rewrite !Rabs_mult, (Rabs_right y), (Rabs_right y') in H by lra.
    assert (y * Rabs d <= y * (k * u64)) by (apply Rmult_le_compat_l; lra). assert (y' * Rabs e <= y' * (k * u64)) by (apply Rmult_le_compat_l; lra). lra.
Qed.
Lemma re_inv x y k : re x y k -> k <= 1000 -> y <> 0 -> x <> 0 /\ re (1 / x) (1 / y) (k + slack).
Proof.
  intros H K Y. pose proof (re_pos _ _ _ H). destruct H as (d & -> & D). pose proof u64_bounds as U.
  assert (Dk : Rabs d <= 1 / 1000000000000) by (eapply Rle_trans; [exact D|apply ku; lra]). assert (D1 : 1 + d <> 0) by (apply Rgt_not_eq; apply Rabs_le_inv in Dk; lra).
  split; [apply Rmult_integral_contrapositive; auto|]. exists (- d / (1 + d)). split; [field; auto|].
  unfold Rdiv. rewrite Rabs_mult, Rabs_Ropp, Rabs_Rinv by auto.
  assert (L : 999999999 / 1000000000 <= Rabs (1 + d)) by (apply Rabs_le_inv in Dk; rewrite Rabs_right; lra).
  apply Rmult_le_reg_r with (Rabs (1 + d)); [lra|]. rewrite Rmult_assoc, Rinv_l, Rmult_1_r by lra.
  eapply Rle_trans; [exact D|]. apply Rle_trans with ((k + slack) * u64 * (1 - k * u64)).
  - assert (KU : k * u64 <= 1 / 1000000000000) by (apply ku; lra). assert (k <= (k + slack) * (1 - k * u64)).
    { unfold slack. assert (k * (k * u64) <= 1000 * (1 / 1000000000000)) by (apply Rmult_le_compat; nra). nra. }
    replace ((k + slack) * u64 * (1 - k * u64)) with ((k + slack) * (1 - k * u64) * u64) by ring. apply Rmult_le_compat_r; lra.
  - apply Rmult_le_compat_l; [unfold slack; nra|]. pose proof (Rabs_triang (1 + d) (- d)) as T. replace (1 + d + - d) with 1 in T by ring. rewrite Rabs_R1, Rabs_Ropp in T. lra.
Qed.
Lemma ge_mul m n x y : ge m x -> ge n y -> ge (m + n) (x * y).
Proof. unfold ge. intros A B. rewrite bpow_plus, Rabs_mult. apply Rmult_le_compat; auto using bpow_ge_0. Qed.
Lemma ge_re m x y k : re x y k -> k <= 1000 -> ge m y -> ge (m - 1) x.
Proof.
  intros H K G. pose proof (re_pos _ _ _ H). destruct H as (d & -> & D). pose proof u64_bounds as U. unfold ge in *.
  assert (Dk : Rabs d <= 1 / 1000000000000) by (eapply Rle_trans; [exact D|apply ku; lra]). rewrite Rabs_mult, (Rabs_right (1 + d)) by (apply Rabs_le_inv in Dk; lra).
  unfold Z.sub. rewrite bpow_plus. apply Rmult_le_compat; auto using bpow_ge_0. apply Rabs_le_inv in Dk. cbn. lra.
Qed.
Lemma ge_le m n x : ge m x -> (n <= m)%Z -> ge n x.
Proof. unfold ge. intros A L. pose proof (bpow_le radix2 _ _ L). lra. Qed.
Lemma rnd_re x : x = 0 \/ ge (-1022) x -> re (rnd64 x) x 1.
Proof.
  intros [->|H].
  - exists 0. unfold rnd64. rewrite round_0 by apply valid_rnd_N. rewrite Rabs_R0. split; [ring|]. pose proof u64_bounds. lra.
  - destruct (relative_error_N_FLT_ex radix2 (-1074) 53 ltac:(reflexivity) (fun z => negb (Z.even z)) x H) as (d & D & E).
    exists d. split; [exact E|]. replace (1 * u64) with (/ 2 * bpow radix2 (- (53) + 1)); [exact D|]. unfold u64. cbn. lra.
Qed.
Lemma re_rnd x y k : re x y k -> k <= 1000 -> x = 0 \/ ge (-1022) x -> re (rnd64 x) y (k + 1 + slack).
Proof.
  intros H K G. pose proof (re_pos _ _ _ H). destruct H as (d & -> & D). destruct (rnd_re _ G) as (e & -> & E).
  exists (d + e + d * e). split; [ring|]. apply comp; auto; lra.
Qed.
(** Doubles near 1 lie on a grid. *)
Lemma grid x : ge (-1) (rnd64 x) -> exists m, rnd64 x = IZR m * bpow radix2 (-53).
Proof.
  intros H. assert (F : generic_format radix2 (FLT_exp (-1074) 53) (rnd64 x)) by (apply generic_format_round; [apply FLT_exp_valid; reflexivity|apply valid_rnd_N]).
  set (y := rnd64 x) in *. unfold generic_format, F2R in F. cbn in F. set (m := Ztrunc (scaled_mantissa radix2 (FLT_exp (-1074) 53) y)) in *.
  set (e := cexp radix2 (FLT_exp (-1074) 53) y) in *. assert (Ee : (-53 <= e)%Z).
  { unfold e, cexp, FLT_exp. assert (0 <= mag radix2 y)%Z. { change 0%Z with (-1 + 1)%Z. apply mag_ge_bpow. exact H. } lia. }
  exists (m * 2 ^ (e + 53))%Z. rewrite F, mult_IZR. rewrite Rmult_assoc. f_equal. rewrite (IZR_Zpower radix2) by lia. rewrite <- bpow_plus. f_equal. lia.
Qed.
Lemma one_minus x : 1 - rnd64 x = 0 \/ ge (-53) (1 - rnd64 x).
Proof.
  destruct (Rlt_le_dec (Rabs (rnd64 x)) (bpow radix2 (-1))) as [L|L].
  - right. unfold ge. cbn in L. pose proof (Rabs_triang (1 - rnd64 x) (rnd64 x)) as T. replace (1 - rnd64 x + rnd64 x) with 1 in T by ring. rewrite Rabs_R1 in T.
    cbn. lra.
  - destruct (grid x L) as (m & ->). 
    assert (B : bpow radix2 53 * bpow radix2 (-53) = 1) by (rewrite <- bpow_plus; reflexivity).
    assert (E : 1 - IZR m * bpow radix2 (-53) = IZR (2 ^ 53 - m) * bpow radix2 (-53)).
    { rewrite minus_IZR. rewrite (IZR_Zpower radix2) by lia. rewrite Rmult_minus_distr_r, B. ring. }
    rewrite E. destruct (Z.eq_dec (2 ^ 53 - m) 0) as [->|N]; [left; ring|right].
    unfold ge. rewrite Rabs_mult, (Rabs_right (bpow _ _)) by (apply Rle_ge, bpow_ge_0). rewrite <- abs_IZR.
    assert (1 <= IZR (Z.abs (2 ^ 53 - m))) by (apply IZR_le; lia). pose proof (bpow_ge_0 radix2 (-53)). nra.
Qed.

Lemma ge_pos_add m x y : 0 <= x -> 0 <= y -> ge m y -> ge m (x + y).
Proof. unfold ge. intros A B. rewrite !Rabs_right by lra. lra. Qed.
Lemma mid_ge x : midrange x -> ge (-50) x. Proof. intros (A & _). exact A. Qed.
Lemma mid_nz x : midrange x -> x <> 0.
Proof. intros (A & _) ->. rewrite Rabs_R0 in A. pose proof (bpow_gt_0 radix2 (-50)). lra. Qed.
Lemma re_sign x y k : re x y k -> k <= 1000 -> 0 <= y -> 0 <= x.
Proof.
  intros H K Y. pose proof (re_pos _ _ _ H). destruct H as (d & -> & D). assert (Dk : Rabs d <= 1 / 1000000000000) by (eapply Rle_trans; [exact D|apply ku; lra]).
  apply Rmult_le_pos; auto. apply Rabs_le_inv in Dk. lra.
Qed.
Lemma re_bounds x y k : re x y k -> 0 <= y -> (1 - k * u64) * y <= x <= (1 + k * u64) * y.
Proof. intros (d & -> & D) Y. apply Rabs_le_inv in D. nra. Qed.

Ltac sl := unfold slack; lra.
Lemma cost_id P H R K : 0 < H * P * H + R -> (1 - K * H) * (1 - K * H) * P + K * K * R =
  P * R / (H * P * H + R) + (H * P * H + R) * ((K - P * H / (H * P * H + R)) * (K - P * H / (H * P * H + R))).
Proof. intros. field. lra. Qed.
Lemma var_id P H R : 0 < P -> 0 < R -> / (/ P + H * H / R) = P * R / (H * P * H + R).
Proof. intros. field. repeat split; nra. Qed.

Lemma update_core P H R : 0 < P -> midrange P -> midrange H -> 0 < R -> midrange R ->
  let S := rnd64 (rnd64 (rnd64 (H * P) * H) + R) in
  let K := rnd64 (rnd64 (P * H) * rnd64 (1 / S)) in
  let y := rnd64 (K * H) in let I := rnd64 (1 - y) in
  S <> 0 /\ re K (P * H / (H * P * H + R)) 7 /\ re (y / H) (P * H / (H * P * H + R)) 8 /\
  re (rnd64 (rnd64 (rnd64 (I * P) * I) + rnd64 (rnd64 (K * R) * K))) ((1 - y / H * H) * (1 - y / H * H) * P + y / H * (y / H) * R) 6.
Proof.
  intros HP MP MH HR MR S K y I.
  pose proof (mid_ge _ MP) as GP. pose proof (mid_ge _ MH) as GH. pose proof (mid_ge _ MR) as GR. pose proof (mid_nz _ MH) as NH.
  assert (T0 : 0 < H * P * H) by (assert (0 < H * H) by (apply Rlt_0_sqr; auto); nra).
  set (T := H * P * H + R) in *. assert (HT : 0 < T) by (unfold T; lra).
  (* upper bound of T *)
  assert (TU : T <= bpow radix2 152).
  { destruct MP as (_ & UP), MH as (_ & UH), MR as (_ & UR). rewrite Rabs_right in UP, UR by lra.
    assert (HPH : H * P * H <= bpow radix2 150).
    { replace (H * P * H) with (Rabs H * P * Rabs H) by (destruct (Rabs_def2 H (Rabs H + 1)) as [_ _]; [lra|]; unfold Rabs; destruct (Rcase_abs H); ring).
      change 150%Z with (50 + 50 + 50)%Z. rewrite !bpow_plus. pose proof (Rabs_pos H). repeat apply Rmult_le_compat; auto; try lra. apply Rmult_le_pos; lra. }
    assert (bpow radix2 50 <= bpow radix2 150) by (apply bpow_le; lia).
    change 152%Z with (1 + (1 + 150))%Z. rewrite 2!bpow_plus. unfold T. pose proof (bpow_ge_0 radix2 150). change (bpow radix2 1) with 2. lra. }
  assert (GT : ge (-152) (1 / T)).
  { unfold ge. rewrite Rabs_right by (apply Rle_ge, Rlt_le, Rdiv_lt_0_compat; lra). change (-152)%Z with (- (152))%Z. rewrite bpow_opp.
    unfold Rdiv. rewrite Rmult_1_l. apply Rinv_le; auto. }
  assert (Ra : re (rnd64 (H * P)) (H * P) 1) by (apply rnd_re; right; eapply ge_le; [apply ge_mul; eauto|lia]).
  assert (Ga : ge (-101) (rnd64 (H * P))) by (apply (ge_re (-100) _ _ _ Ra); [lra|apply (ge_mul (-50) (-50)); auto]).
  assert (Rb0 : re (rnd64 (H * P) * H) (H * P * H) (1 + 0 + slack)) by (apply re_mul; [exact Ra|apply re_refl|lra|lra]).
  assert (Rb : re (rnd64 (rnd64 (H * P) * H)) (H * P * H) (1 + 0 + slack + 1 + slack)).
  { apply re_rnd; [exact Rb0|sl|]. right. eapply ge_le; [apply ge_mul; eauto|lia]. }
  assert (RS0 : re (rnd64 (rnd64 (H * P) * H) + R) T (21 / 10)).
  { apply re_add; [eapply re_le; [exact Rb|sl]|eapply re_le; [apply re_refl|lra]|lra|lra]. }
  assert (Gb : ge (-50) (rnd64 (rnd64 (H * P) * H) + R)) by (apply ge_pos_add; [apply (re_sign _ _ _ Rb); [sl|lra]|lra|auto]).
  assert (RS : re S T (21 / 10 + 1 + slack)) by (apply re_rnd; [exact RS0|lra|right; eapply ge_le; [exact Gb|lia]]).
  destruct (re_inv _ _ _ RS ltac:(sl) ltac:(lra)) as (NS & RI0).
  assert (GI : ge (-153) (1 / S)) by (apply (ge_re (-152) _ _ _ RI0); [sl|auto]).
  assert (RI : re (rnd64 (1 / S)) (1 / T) (21 / 10 + 1 + slack + slack + 1 + slack)) by (apply re_rnd; [exact RI0|sl|right; eapply ge_le; [exact GI|lia]]).
  assert (GSi : ge (-153) (rnd64 (1 / S))) by (apply (ge_re (-152) _ _ _ RI); [sl|auto]).
  assert (Rc : re (rnd64 (P * H)) (P * H) 1) by (apply rnd_re; right; eapply ge_le; [apply ge_mul; eauto|lia]).
  assert (Gc : ge (-101) (rnd64 (P * H))) by (apply (ge_re (-100) _ _ _ Rc); [lra|apply (ge_mul (-50) (-50)); auto]).
  assert (RK0 := re_mul _ _ _ _ _ _ Rc RI ltac:(lra) ltac:(sl)).
  assert (GK0 : ge (-254) (rnd64 (P * H) * rnd64 (1 / S))) by (apply (ge_mul (-101) (-153)); auto).
  assert (RK1 : re K (P * H * (1 / T)) (1 + (21 / 10 + 1 + slack + slack + 1 + slack) + slack + 1 + slack)) by (apply re_rnd; [exact RK0|sl|right; eapply ge_le; [exact GK0|lia]]).
  replace (P * H * (1 / T)) with (P * H / T) in RK1 by (field; lra).
  assert (GK : ge (-255) K).
  { assert (G0 : ge (-254) (rnd64 (rnd64 (P * H) * rnd64 (1 / S)))).
    { apply (ge_re (-253) _ _ _ RK1); [sl|]. replace (P * H / T) with (P * H * (1 / T)) by (field; lra).
      eapply ge_le; [apply ge_mul; [apply ge_mul; eauto|exact GT]|lia]. }
    eapply ge_le; [exact G0|lia]. }
  assert (Ry0 : re y (K * H) 1) by (apply rnd_re; right; eapply ge_le; [apply ge_mul; eauto|lia]).
  assert (RKy : re (y / H) K 1).
  { destruct Ry0 as (d & E & D). exists d. split; [rewrite E; field; auto|auto]. }
  assert (RyK : re K (y / H) (1 + slack)).
  { pose proof u64_bounds as U. destruct RKy as (d & E & D). assert (D1 : 1 + d <> 0) by (apply Rgt_not_eq; apply Rabs_le_inv in D; lra).
    assert (J : re (1 + d) 1 1) by (exists d; split; [ring|auto]).
    destruct (re_inv _ _ _ J ltac:(lra) ltac:(lra)) as (_ & (d' & E' & D')). exists d'. split; [|exact D'].
    rewrite E. replace (K * (1 + d) * (1 + d')) with (K * ((1 + d) * (1 / 1 * (1 + d')))) by field. rewrite <- E'. field. auto. }
  assert (RKK : re (y / H) (P * H / T) 8).
  { destruct RKy as (d & E & D), RK1 as (d1 & E1 & D1). rewrite E, E1. eapply re_le.
    - exists (d1 + d + d1 * d). split; [ring|]. eapply comp; [exact D1|exact D|sl|lra].
    - sl. }
  split; [exact NS|]. split; [eapply re_le; [exact RK1|sl]|]. split; [exact RKK|].
  set (k := y / H) in *. assert (Ek : k * H = y) by (unfold k; field; auto). rewrite Ek.
  assert (ZI : 1 - y = 0 \/ ge (-53) (1 - y)) by apply one_minus.
  assert (RIk : re I (1 - y) 1) by (apply rnd_re; destruct ZI; [auto|right; eapply ge_le; [eassumption|lia]]).
  assert (GI' : I = 0 \/ ge (-54) I).
  { destruct ZI as [Z|Z]; [left|right; apply (ge_re (-53) _ _ _ RIk); [lra|auto]]. destruct RIk as (d & -> & _). rewrite Z. ring. }
  assert (RIP0 := re_mul _ _ _ _ _ _ RIk (re_refl P) ltac:(lra) ltac:(lra)).
  assert (ZIP : I * P = 0 \/ ge (-104) (I * P)) by (destruct GI' as [Z|Z]; [left; rewrite Z; ring|right; apply (ge_mul (-54) (-50)); auto]).
  assert (RIP : re (rnd64 (I * P)) ((1 - y) * P) (1 + 0 + slack + 1 + slack)).
  { apply re_rnd; [exact RIP0|sl|]. destruct ZIP; [auto|right; eapply ge_le; [eassumption|lia]]. }
  assert (GIP : rnd64 (I * P) = 0 \/ ge (-105) (rnd64 (I * P))).
  { destruct ZIP as [Z|Z].
    - left. rewrite Z. unfold rnd64. apply round_0. apply valid_rnd_N.
    - right. assert (Q : re (rnd64 (I * P)) (I * P) 1) by (apply rnd_re; right; eapply ge_le; [exact Z|lia]). apply (ge_re (-104) _ _ _ Q); [lra|auto]. }
  assert (RA0 := re_mul _ _ _ _ _ _ RIP RIk ltac:(sl) ltac:(lra)).
  assert (RA : re (rnd64 (rnd64 (I * P) * I)) ((1 - y) * (1 - y) * P) (49 / 10)).
  { eapply re_le; [replace ((1 - y) * (1 - y) * P) with ((1 - y) * P * (1 - y)) by ring; apply re_rnd; [exact RA0|sl|]|sl].
    destruct GIP as [Z|Z]; [left; rewrite Z; ring|]. destruct GI' as [Z'|Z']; [left; rewrite Z'; ring|].
    right. eapply ge_le; [apply ge_mul; eauto|lia]. }
  assert (RKR0 := re_mul _ _ _ _ _ _ RyK (re_refl R) ltac:(sl) ltac:(lra)).
  assert (GKR : ge (-305) (K * R)) by (apply (ge_mul (-255) (-50)); auto).
  assert (RKR : re (rnd64 (K * R)) (k * R) (1 + slack + 0 + slack + 1 + slack)) by (apply re_rnd; [exact RKR0|sl|right; eapply ge_le; [exact GKR|lia]]).
  assert (GKR' : ge (-306) (rnd64 (K * R))).
  { assert (Q : re (rnd64 (K * R)) (K * R) 1) by (apply rnd_re; right; eapply ge_le; [exact GKR|lia]). apply (ge_re (-305) _ _ _ Q); [lra|auto]. }
  assert (RB0 := re_mul _ _ _ _ _ _ RKR RyK ltac:(sl) ltac:(sl)).
  assert (RB : re (rnd64 (rnd64 (K * R) * K)) (k * k * R) (49 / 10)).
  { eapply re_le; [replace (k * k * R) with (k * R * k) by ring; apply re_rnd; [exact RB0|sl|right; eapply ge_le; [apply ge_mul; eauto|lia]]|sl]. }
  assert (PA : 0 <= (1 - y) * (1 - y) * P) by (apply Rmult_le_pos; [apply Rle_0_sqr|lra]).
  assert (PB : 0 <= k * k * R) by (apply Rmult_le_pos; [apply Rle_0_sqr|lra]).
  eapply re_le; [apply re_rnd; [apply re_add; eauto|lra|]|sl]. right.
  apply (ge_le (-562)); [|lia].
  apply ge_pos_add; [apply (re_sign _ _ _ RA); [lra|auto]|apply (re_sign _ _ _ RB); [lra|auto]|].
  assert (Q : re (rnd64 (rnd64 (K * R) * K)) (rnd64 (K * R) * K) 1) by (apply rnd_re; right; eapply ge_le; [apply ge_mul; eauto|lia]).
  apply (ge_re (-561) _ _ _ Q); [lra|]. apply (ge_mul (-306) (-255)); auto.
Qed.

Lemma update_float x P z H R : 0 < P -> midrange P -> midrange H -> 0 < R -> midrange R ->
  exists x' P', filterUpdate1_f rnd64 x P z H R = Ret (x', P') /\
    let V := / (/ P + H * H / R) in (1 - 6 * u64) * V <= P' <= (1 + 6 * u64) * (V + 64 * u64 * u64 * P).
Proof.
  intros HP MP MH HR MR. destruct (update_core P H R HP MP MH HR MR) as (NS & _ & RK & RP).
  unfold filterUpdate1_f. rewrite Rdivc_ok by exact NS. cbn [bind]. do 2 eexists. split; [reflexivity|].
  rewrite var_id by auto. pose proof (mid_nz _ MH) as NH.
  assert (T0 : 0 < H * P * H) by (assert (0 < H * H) by (apply Rlt_0_sqr; auto); nra).
  match type of RP with re ?p _ _ => set (P' := p) in * end. match type of RK with re ?p _ _ => set (k := p) in * end.
  rewrite cost_id in RP by lra. set (T := H * P * H + R) in *. assert (HT : 0 < T) by (unfold T; lra).
  set (ks := P * H / T) in *. set (V := P * R / T) in *.
  assert (PV : 0 <= V) by (unfold V; apply Rlt_le, Rdiv_lt_0_compat; nra).
  pose proof u64_bounds as U.
  assert (D : T * ((k - ks) * (k - ks)) <= 64 * u64 * u64 * P).
  { destruct RK as (d & E & Dd). rewrite E. replace (T * ((ks * (1 + d) - ks) * (ks * (1 + d) - ks))) with ((d * d) * (P * (H * P * H / T))) by (unfold ks; field; lra).
    assert (d * d <= 64 * u64 * u64) by (apply Rabs_le_inv in Dd; nra).
    assert (H * P * H / T <= 1) by (unfold T; apply Rmult_le_reg_r with (H * P * H + R); [lra|]; unfold Rdiv; rewrite Rmult_assoc, Rinv_l by lra; lra).
    assert (0 <= H * P * H / T) by (apply Rlt_le, Rdiv_lt_0_compat; lra).
    assert (0 <= d * d) by apply Rle_0_sqr. apply Rmult_le_compat; auto; nra. }
  assert (D0 : 0 <= T * ((k - ks) * (k - ks))) by (apply Rmult_le_pos; [lra|apply Rle_0_sqr]).
  destruct (re_bounds _ _ _ RP ltac:(lra)) as (B1 & B2). split; nra.
Qed.
Lemma predict_float x P phi Q : 0 < P -> midrange P -> midrange phi -> (Q = 0 \/ 0 < Q /\ midrange Q) ->
  (1 - 4 * u64) * (phi * phi * P + Q) <= snd (filterPredict1_f rnd64 x P phi Q) <= (1 + 4 * u64) * (phi * phi * P + Q).
Proof.
  intros HP MP MH MQ. cbn [filterPredict1_f snd]. pose proof (mid_ge _ MP) as GP. pose proof (mid_ge _ MH) as GH. pose proof (mid_nz _ MH) as NH.
  assert (T0 : 0 < phi * phi * P) by (assert (0 < phi * phi) by (apply Rlt_0_sqr; auto); nra).
  assert (Ra : re (rnd64 (phi * P)) (phi * P) 1) by (apply rnd_re; right; eapply ge_le; [apply ge_mul; eauto|lia]).
  assert (Ga : ge (-101) (rnd64 (phi * P))) by (apply (ge_re (-100) _ _ _ Ra); [lra|apply (ge_mul (-50) (-50)); auto]).
  assert (Rb0 := re_mul _ _ _ _ _ _ Ra (re_refl phi) ltac:(lra) ltac:(lra)).
  assert (Rb : re (rnd64 (rnd64 (phi * P) * phi)) (phi * phi * P) (21 / 10)).
  { eapply re_le; [replace (phi * phi * P) with (phi * P * phi) by ring; apply re_rnd; [exact Rb0|sl|right; eapply ge_le; [apply ge_mul; eauto|lia]]|sl]. }
  assert (Gb : ge (-152) (rnd64 (rnd64 (phi * P) * phi))).
  { assert (Q' : re (rnd64 (rnd64 (phi * P) * phi)) (rnd64 (phi * P) * phi) 1) by (apply rnd_re; right; eapply ge_le; [apply ge_mul; eauto|lia]).
    apply (ge_re (-151) _ _ _ Q'); [lra|]. apply (ge_mul (-101) (-50)); auto. }
  assert (PQ : 0 <= Q) by (destruct MQ as [->|(A & _)]; lra).
  assert (Rs : re (rnd64 (rnd64 (rnd64 (phi * P) * phi) + Q)) (phi * phi * P + Q) 4).
  { eapply re_le; [apply re_rnd; [apply (re_add _ _ (21 / 10)); [exact Rb|eapply re_le; [apply re_refl|lra]|lra|auto]|lra|]|sl].
    right. rewrite Rplus_comm. eapply ge_le; [apply ge_pos_add; [auto|apply (re_sign _ _ _ Rb); lra|exact Gb]|lia]. }
  apply re_bounds; [exact Rs|lra].
Qed.

(** Histories. *)
Lemma step_mono s P P' : step_ok s -> 0 < P -> P <= P' -> variance_step P s <= variance_step P' s.
Proof.
  intros Hs HP L. destruct s as [phi Q|z H R]; cbn.
  - assert (0 <= phi * phi) by apply Rle_0_sqr. nra.
  - destruct Hs as (MH & HR & _). assert (0 <= H * H / R) by (apply Rmult_le_pos; [apply Rle_0_sqr|apply Rlt_le, Rinv_0_lt_compat; auto]).
    assert (/ P' <= / P) by (apply Rinv_le; auto). assert (0 < / P') by (apply Rinv_0_lt_compat; lra). apply Rinv_le; lra.
Qed.
Lemma step_scale s P c : step_ok s -> 0 < P -> 0 < c <= 1 -> c * variance_step P s <= variance_step (c * P) s.
Proof.
  intros Hs HP Hc. destruct s as [phi Q|z H R]; cbn.
  - destruct Hs as (_ & HQ). assert (0 <= Q) by (destruct HQ as [->|(A & _)]; lra). nra.
  - destruct Hs as (MH & HR & _). assert (0 <= H * H / R) by (apply Rmult_le_pos; [apply Rle_0_sqr|apply Rlt_le, Rinv_0_lt_compat; auto]).
    assert (0 < / P) by (apply Rinv_0_lt_compat; lra). rewrite Rinv_mult_distr by lra.
    assert (E : c * / (/ P + H * H / R) = / (/ c * (/ P + H * H / R))) by (field; repeat split; try lra; nra).
    rewrite E. assert (1 <= / c) by (rewrite <- Rinv_1; apply Rinv_le; lra). apply Rinv_le; [|nra].
    assert (0 < / c * / P) by (apply Rmult_lt_0_compat; lra). lra.
Qed.
Lemma step_pos s P : step_ok s -> 0 < P -> 0 < variance_step P s.
Proof.
  intros Hs HP. destruct s as [phi Q|z H R]; cbn.
  - destruct Hs as (M & HQ). assert (0 <= Q) by (destruct HQ as [->|(A & _)]; lra). assert (0 < phi * phi) by (apply Rlt_0_sqr, mid_nz; auto). nra.
  - destruct Hs as (MH & HR & _). assert (0 <= H * H / R) by (apply Rmult_le_pos; [apply Rle_0_sqr|apply Rlt_le, Rinv_0_lt_compat; auto]).
    apply Rinv_0_lt_compat. assert (0 < / P) by (apply Rinv_0_lt_compat; lra). lra.
Qed.
Lemma step_unscale s P c : step_ok s -> 0 < P -> 1 <= c -> variance_step (c * P) s <= c * variance_step P s.
Proof.
  intros Hs HP Hc. destruct s as [phi Q|z H R]; cbn.
  - destruct Hs as (_ & HQ). assert (0 <= Q) by (destruct HQ as [->|(A & _)]; lra). nra.
  - destruct Hs as (MH & HR & _). assert (0 <= H * H / R) by (apply Rmult_le_pos; [apply Rle_0_sqr|apply Rlt_le, Rinv_0_lt_compat; auto]).
    assert (0 < / P) by (apply Rinv_0_lt_compat; lra). rewrite Rinv_mult_distr by lra.
    assert (E : c * / (/ P + H * H / R) = / (/ c * (/ P + H * H / R))) by (field; repeat split; try lra; nra).
    rewrite E. assert (0 < / c) by (apply Rinv_0_lt_compat; lra). assert (/ c <= 1) by (rewrite <- Rinv_1; apply Rinv_le; lra).
    assert (0 < / c * / P) by (apply Rmult_lt_0_compat; lra). apply Rinv_le; nra.
Qed.

(** One call, on a computed variance [P] that is [V] up to the factors [lo] and [hi]. *)
Lemma quiet_update x P z H R : 0 < P -> midrange P -> midrange H -> 0 < R -> midrange R -> H * H * P <= bpow radix2 46 * R ->
  exists x' P', filterUpdate1_f rnd64 x P z H R = Ret (x', P') /\
    let V := / (/ P + H * H / R) in (1 - 8 * u64) * V <= P' <= (1 + 8 * u64) * V.
Proof.
  intros HP MP MH HR MR L. destruct (update_float x P z H R HP MP MH HR MR) as (x' & P' & E & B). exists x', P'. split; [exact E|].
  cbv zeta in *. pose proof u64_bounds as U. rewrite var_id in * by auto. pose proof (mid_nz _ MH) as NH.
  assert (T0 : 0 < H * P * H) by (assert (0 < H * H) by (apply Rlt_0_sqr; auto); nra).
  set (T := H * P * H + R) in *. assert (HT : 0 < T) by (unfold T; lra). set (V := P * R / T) in *.
  assert (PV : 0 < V) by (unfold V; apply Rdiv_lt_0_compat; nra).
  assert (TL : T <= bpow radix2 47 * R).
  { unfold T. replace (H * P * H) with (H * H * P) by ring. change 47%Z with (1 + 46)%Z. rewrite bpow_plus. change (bpow radix2 1) with 2.
    assert (1 <= bpow radix2 46) by (apply (bpow_le radix2 0); lia). nra. }
  assert (PL : P <= bpow radix2 47 * V).
  { unfold V. replace (bpow radix2 47 * (P * R / T)) with (P * (bpow radix2 47 * R / T)) by (unfold Rdiv; ring).
    rewrite <- (Rmult_1_r P) at 1. apply Rmult_le_compat_l; [lra|]. apply Rmult_le_reg_r with T; auto. unfold Rdiv. rewrite Rmult_assoc, Rinv_l by lra. lra. }
  assert (X : 64 * u64 * u64 * P <= u64 * V).
  { apply Rle_trans with (64 * u64 * u64 * (bpow radix2 47 * V)); [apply Rmult_le_compat_l; [nra|auto]|].
    replace (64 * u64 * u64 * (bpow radix2 47 * V)) with (64 * bpow radix2 47 * u64 * (u64 * V)) by ring.
    replace (64 * bpow radix2 47 * u64) with 1; [lra|]. unfold u64. change 64 with (bpow radix2 6). rewrite <- !bpow_plus. reflexivity. }
  destruct B as (B1 & B2). assert (UV : 0 <= u64 * V) by nra. assert (UUV : 6 * u64 * (u64 * V) <= u64 * V) by nra. split; [lra|].
  apply Rle_trans with ((1 + 6 * u64) * (V + u64 * V)); [|lra]. eapply Rle_trans; [exact B2|]. apply Rmult_le_compat_l; lra.
Qed.
Lemma quiet_predict x P phi Q : 0 < P -> midrange P -> midrange phi -> (Q = 0 \/ 0 < Q /\ midrange Q) ->
  (1 - 8 * u64) * (phi * phi * P + Q) <= snd (filterPredict1_f rnd64 x P phi Q) <= (1 + 8 * u64) * (phi * phi * P + Q).
Proof.
  intros HP MP MH MQ. pose proof (predict_float x P phi Q HP MP MH MQ). pose proof u64_bounds.
  assert (0 <= phi * phi * P + Q) by (assert (0 <= phi * phi) by apply Rle_0_sqr; destruct MQ as [->|(A & _)]; nra). nra.
Qed.

Lemma calm_range V l : calm V l -> bpow radix2 (-49) <= V <= bpow radix2 49.
Proof. destruct l; cbn; tauto. Qed.
Lemma history_bound l : forall x P V lo hi, 0 < lo <= 1 -> 1 <= hi -> lo * (1 - 8 * u64) ^ length l >= 1 / 2 -> hi * (1 + 8 * u64) ^ length l <= 2 ->
  calm V l -> lo * V <= P <= hi * V ->
  exists out, run1_f rnd64 x P l = Ret out /\ length out = length l /\
    forall k, (k < length l)%nat -> lo * (1 - 8 * u64) ^ S k * variance V (firstn (S k) l) <= snd (nth k out (0, 0)) <= hi * (1 + 8 * u64) ^ S k * variance V (firstn (S k) l).
Proof.
  pose proof u64_bounds as U. induction l as [|s l IH]; intros x P V lo hi Hlo Hhi Blo Bhi C B.
  { exists []. split; [reflexivity|]. split; [reflexivity|]. cbn. intros; lia. }
  assert (RV := calm_range _ _ C). destruct C as (_ & Hs & Hq & C). 
  assert (PV : 0 < V) by (pose proof (bpow_gt_0 radix2 (-49)); lra).
  assert (P1 : (1 - 8 * u64) ^ length (s :: l) <= 1) by (pose proof (pow_incr (1 - 8 * u64) 1 (length (s :: l)) ltac:(lra)) as W; rewrite pow1 in W; exact W).
  assert (P2 : 1 <= (1 + 8 * u64) ^ length (s :: l)) by (apply pow_R1_Rle; lra).
  assert (lo2 : 1 / 2 <= lo) by nra. assert (hi2 : hi <= 2) by nra.
  assert (PP : 0 < P) by nra.
  assert (MP : midrange P).
  { unfold midrange. rewrite Rabs_right by lra. change (-50)%Z with (-1 + -49)%Z. change 50%Z with (1 + 49)%Z. rewrite !bpow_plus.
    change (bpow radix2 (-1)) with (/ 2). change (bpow radix2 1) with 2. pose proof (bpow_gt_0 radix2 (-49)). nra. }
  assert (St : exists y, (match s with Predict1 phi Q => Ret (filterPredict1_f rnd64 x P phi Q) | Update1 z H Rk => filterUpdate1_f rnd64 x P z H Rk end) = Ret y /\
                (1 - 8 * u64) * variance_step P s <= snd y <= (1 + 8 * u64) * variance_step P s).
  { destruct s as [phi Q|z H R]; cbn [step_ok variance_step] in Hs, Hq |- *.
    - eexists. split; [reflexivity|]. destruct Hs. apply quiet_predict; auto.
    - destruct Hs as (MH & HR & MR). destruct (quiet_update x P z H R PP MP MH HR MR) as (x' & P' & E & Y).
      + change 46%Z with (1 + 45)%Z. rewrite bpow_plus. change (bpow radix2 1) with 2. assert (0 <= H * H) by apply Rle_0_sqr.
        apply Rle_trans with (H * H * (2 * V)); [apply Rmult_le_compat_l; [auto|]|lra].
        eapply Rle_trans; [apply B|apply Rmult_le_compat_r; lra].
      + exists (x', P'). split; [exact E|exact Y]. }
  destruct St as (y & Ey & By). cbn [run1_f]. rewrite Ey. cbn [bind].
  set (V' := variance_step V s) in *. assert (PV' : 0 < V') by (apply step_pos; auto).
  assert (Lo : lo * V' <= variance_step P s).
  { eapply Rle_trans; [apply step_scale; auto|]. apply step_mono; [auto|nra|lra]. }
  assert (Hi : variance_step P s <= hi * V').
  { eapply Rle_trans; [apply step_mono with (P' := hi * V); [auto|lra|lra]|]. apply step_unscale; auto. }
  assert (W : (lo * (1 - 8 * u64)) * V' <= snd y <= (hi * (1 + 8 * u64)) * V').
  { split.
    - eapply Rle_trans; [|apply By]. replace (lo * (1 - 8 * u64) * V') with ((1 - 8 * u64) * (lo * V')) by ring. apply Rmult_le_compat_l; lra.
    - eapply Rle_trans; [apply By|]. replace (hi * (1 + 8 * u64) * V') with ((1 + 8 * u64) * (hi * V')) by ring. apply Rmult_le_compat_l; lra. }
  cbn [length pow] in Blo, Bhi.
  destruct (IH (fst y) (snd y) V' (lo * (1 - 8 * u64)) (hi * (1 + 8 * u64))) as (out & Eo & Lo' & Bo); [split; nra|nra| | |exact C|exact W|].
  { rewrite Rmult_assoc. exact Blo. } { rewrite Rmult_assoc. exact Bhi. }
  rewrite Eo. cbn [bind]. exists (y :: out). split; [reflexivity|]. split; [cbn; congruence|].
  intros [|k] Hk.
  - cbn [firstn nth variance fold_left pow]. fold V'. replace (firstn 0 l) with (@nil step1) by (destruct l; reflexivity). cbn [fold_left]. lra.
  - cbn [length] in Hk. specialize (Bo k ltac:(lia)). cbn [nth]. change (variance V (firstn (S (S k)) (s :: l))) with (variance V' (firstn (S k) l)).
    change ((1 - 8 * u64) ^ S (S k)) with ((1 - 8 * u64) * (1 - 8 * u64) ^ S k). change ((1 + 8 * u64) ^ S (S k)) with ((1 + 8 * u64) * (1 + 8 * u64) ^ S k). lra.
Qed.
Lemma pow_lo n : 1 - 8 * u64 * INR n <= (1 - 8 * u64) ^ n.
Proof.
  pose proof u64_bounds as U. induction n; [cbn; lra|]. rewrite S_INR. cbn [pow]. pose proof (pos_INR n).
  apply Rle_trans with ((1 - 8 * u64) * (1 - 8 * u64 * INR n)); [|apply Rmult_le_compat_l; lra]. nra.
Qed.
Lemma pow_hi n : 8 * u64 * INR n <= 1 / 2 -> (1 + 8 * u64) ^ n <= 1 + 16 * u64 * INR n.
Proof.
  pose proof u64_bounds as U. induction n; [cbn; lra|]. rewrite S_INR. cbn [pow]. pose proof (pos_INR n). intros L.
  apply Rle_trans with ((1 + 8 * u64) * (1 + 16 * u64 * INR n)); [apply Rmult_le_compat_l; [lra|apply IHn; nra]|]. nra.
Qed.
Lemma history_float x P l : calm P l -> INR (length l) <= bpow radix2 49 ->
  exists out, run1_f rnd64 x P l = Ret out /\ length out = length l /\
    forall k, (k < length l)%nat -> (1 - 8 * u64) ^ S k * variance P (firstn (S k) l) <= snd (nth k out (0, 0)) <= (1 + 8 * u64) ^ S k * variance P (firstn (S k) l).
Proof.
  intros C N. pose proof u64_bounds as U. assert (B : 8 * u64 * INR (length l) <= 1 / 2).
  { apply Rle_trans with (8 * u64 * bpow radix2 49); [apply Rmult_le_compat_l; lra|]. unfold u64. change 8 with (bpow radix2 3). rewrite <- !bpow_plus. cbn. lra. }
  destruct (history_bound l x P P 1 1) as (out & E & Ln & K); try lra.
  - pose proof (pow_lo (length l)). lra.
  - pose proof (pow_hi (length l) B). lra.
  - exact C.
  - exists out. split; [exact E|]. split; [exact Ln|]. intros k Hk. specialize (K k Hk). rewrite !Rmult_1_l in K. exact K.
Qed.
