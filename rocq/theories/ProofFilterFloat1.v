(** Rounding errors of the prediction of a filter: the scalar steps. *)
From Coq Require Import Reals Lra Psatz.
From Verif Require Import SpecFloatOps ProofStrapdownFloat ProofStrapdownFloat2.
Open Scope R_scope.

Lemma loop_step (r : R -> R) k acc S T p : (forall x, Rabs (r x - x) <= u64 * Rabs x + eta64) -> 0 <= k <= 1000000 -> Rabs S <= T ->
  Rabs (acc - S) <= 101 / 100 * ((k + 1) * u64) * T + 3 * k * eta64 ->
  Rabs (r (acc + r p) - (S + p)) <= 101 / 100 * ((k + 1 + 1) * u64) * (T + Rabs p) + 3 * (k + 1) * eta64.
Proof.
  intros Hr Hk HS HA. pose proof u64_bounds as (U0 & U1). pose proof eta_pos as E0.
  pose proof (Hr p) as H1. pose proof (Hr (acc + r p)) as H2. set (q := r p) in *. set (z := r (acc + q)) in *. clearbody q z.
  set (GT := 101 / 100 * ((k + 1) * u64)) in *. assert (Gb : 0 <= GT <= 1 / 1000) by (unfold GT; split; nra).
  assert (T0 : 0 <= T) by (pose proof (Rabs_pos S); lra). pose proof (Rabs_pos p) as P0.
  assert (HB : Rabs (acc + q) <= T + (GT * T + 3 * k * eta64) + (Rabs p + (u64 * Rabs p + eta64))).
  { replace (acc + q) with (S + (acc - S) + (p + (q - p))) by ring. eapply Rle_trans; [apply Rabs_triang|].
    pose proof (Rabs_triang S (acc - S)). pose proof (Rabs_triang p (q - p)). lra. }
  assert (ER : Rabs (z - (S + p)) <= (u64 * Rabs (acc + q) + eta64) + (GT * T + 3 * k * eta64) + (u64 * Rabs p + eta64)).
  { replace (z - (S + p)) with ((z - (acc + q)) + (acc - S) + (q - p)) by ring. eapply Rle_trans; [apply Rabs_triang|].
    pose proof (Rabs_triang (z - (acc + q)) (acc - S)). lra. }
  pose proof (Rmult_le_compat_l u64 _ _ (Rlt_le _ _ U0) HB) as HC.
  set (pa := Rabs p) in *. clearbody pa. set (n := Rabs (acc + q)) in *. clearbody n.
  assert (A1 : u64 * (GT * T) <= u64 * T / 1000) by (assert (0 <= u64 * T) by nra; nra).
  assert (A2 : u64 * (3 * k * eta64) <= eta64 / 1000) by (assert (0 <= k * u64 <= 1 / 1000000000) by nra; nra).
  assert (A3 : u64 * (u64 * pa + eta64) <= u64 * pa / 1000 + eta64 / 1000) by (assert (0 <= u64 * pa) by nra; nra).
  assert (A4 : 0 <= u64 * pa * k) by (apply Rmult_le_pos; [nra|lra]). assert (A5 : 0 <= u64 * pa) by nra. assert (A6 : 0 <= u64 * T) by nra.
  assert (A7 : 101 / 100 * ((k + 1 + 1) * u64) * (T + pa) = GT * T + 101 / 100 * (u64 * T) + 101 / 100 * (u64 * pa * k) + 202 / 100 * (u64 * pa)) by (unfold GT; field).
  rewrite A7. lra.
Qed.

(** The second product and the final addition: [SF] approximates [S], a sum of
    terms of size [Z] in all. *)
Lemma finish (r : R -> R) n SF S SM Z RJ q : (forall x, Rabs (r x - x) <= u64 * Rabs x + eta64) -> 1 <= n <= 1000000 ->
  0 <= Z -> 0 <= RJ -> Rabs S <= Z ->
  SM <= (1 + 101 / 100 * ((n + 1) * u64)) * Z + 3 * n * eta64 * RJ ->
  Rabs (SF - S) <= (101 / 100 * ((n + 1) * u64) * SM + 3 * n * eta64) + (101 / 100 * ((n + 1) * u64) * Z + 3 * n * eta64 * RJ) ->
  Rabs (r (SF + q) - (S + q)) <= 3 * (n + 1) * u64 * Z + u64 * Rabs q + 5 * n * (1 + RJ) * eta64.
Proof.
  intros Hr Hn HZ HR HS HM HE. pose proof u64_bounds as (U0 & U1). pose proof eta_pos as E0.
  pose proof (Hr (SF + q)) as H2. set (z := r (SF + q)) in *. clearbody z.
  set (g := 101 / 100 * ((n + 1) * u64)) in *. assert (Gb : 0 <= g <= 1 / 100000000) by (unfold g; split; nra).
  set (w := 3 * n * eta64) in *. assert (W0 : 0 <= w) by (unfold w; apply Rmult_le_pos; nra).
  assert (WR : 0 <= w * RJ) by (apply Rmult_le_pos; lra).
  assert (HB : Rabs (SF + q) <= Z + Rabs (SF - S) + Rabs q).
  { replace (SF + q) with (S + (SF - S) + q) by ring. eapply Rle_trans; [apply Rabs_triang|]. pose proof (Rabs_triang S (SF - S)). lra. }
  assert (ER : Rabs (z - (S + q)) <= (u64 * Rabs (SF + q) + eta64) + Rabs (SF - S)).
  { replace (z - (S + q)) with ((z - (SF + q)) + (SF - S)) by ring. eapply Rle_trans; [apply Rabs_triang|]. lra. }
  pose proof (Rmult_le_compat_l u64 _ _ (Rlt_le _ _ U0) HB) as HC.
  pose proof (Rmult_le_compat_l g _ _ (proj1 Gb) HM) as HD.
  set (pa := Rabs q) in *. clearbody pa. set (nn := Rabs (SF + q)) in *. clearbody nn. set (d := Rabs (SF - S)) in *. clearbody d.
  assert (B1 : g * ((1 + g) * Z + w * RJ) <= 1001 / 1000 * (g * Z) + w * RJ / 1000).
  { assert (0 <= g * Z) by (apply Rmult_le_pos; lra). nra. }
  assert (B2 : d <= 2001 / 1000 * (g * Z) + 1001 / 1000 * (w * RJ) + w) by lra.
  assert (B3 : 0 <= d \/ d < 0) by lra.
  assert (GZ : 0 <= g * Z) by (apply Rmult_le_pos; lra).
  assert (B4 : u64 * d <= (g * Z + w * RJ + w) / 1000).
  { apply Rle_trans with (u64 * (2001 / 1000 * (g * Z) + 1001 / 1000 * (w * RJ) + w)); [apply Rmult_le_compat_l; lra|nra]. }
  assert (B5 : Rabs (z - (S + q)) <= u64 * Z + 2002 / 1000 * (g * Z) + u64 * pa + eta64 + 1002 / 1000 * (w * RJ) + 1001 / 1000 * w) by lra.
  assert (C1 : g * Z = 101 / 100 * (n * (u64 * Z)) + 101 / 100 * (u64 * Z)) by (unfold g; field).
  assert (C2 : w = 3 * (n * eta64)) by (unfold w; ring). assert (C3 : w * RJ = 3 * (n * RJ * eta64)) by (unfold w; ring).
  assert (C4 : 3 * (n + 1) * u64 * Z = 3 * (n * (u64 * Z)) + 3 * (u64 * Z)) by ring.
  assert (C5 : 5 * n * (1 + RJ) * eta64 = 5 * (n * eta64) + 5 * (n * RJ * eta64)) by ring.
  rewrite C4, C5. assert (UZ : 0 <= u64 * Z) by (apply Rmult_le_pos; lra).
  assert (D1 : u64 * Z <= n * (u64 * Z)) by nra. assert (D2 : eta64 <= n * eta64) by nra.
  lra.
Qed.

(** ** Two cases in doubles *)
From Coq Require Import ZArith Lia.
From Flocq Require Import Core.
From Verif Require Import ModelDate ProofRnd.
Definition dot2 (r : R -> R) a0 b0 a1 b1 : R := r (r (0 + r (a0 * b0)) + r (a1 * b1)).
Definition g3 : R := IZR 6004799503160661 * bpow radix2 (-54).
Definition f7 : R := IZR 5254199565265579 * bpow radix2 (-51).
Lemma rnd64_opp x : rnd64 (- x) = - rnd64 x.
Proof. unfold rnd64. apply (round_NE_opp radix2). Qed.
Lemma b_at e k : (0 <= k)%Z -> bpow radix2 (e + k) = IZR (2 ^ k) * bpow radix2 e.
Proof. intro H. rewrite (IZR_Zpower radix2) by lia. now rewrite bpow_plus, Rmult_comm. Qed.
Lemma rnd_near m e x d k : (-1074 <= e - k)%Z -> (1 <= k)%Z -> (2 ^ 52 < m <= 2 ^ 53)%Z -> x = IZR (m * 2 ^ k + d) * bpow radix2 (e - k) -> (Z.abs d < 2 ^ (k - 1))%Z ->
  rnd64 x = IZR m * bpow radix2 e.
Proof.
  intros He Hk Hm Hx Hd. apply rnd64_is; [lia|exact Hm|]. rewrite Hx.
  replace (bpow radix2 e) with (IZR (2 ^ k) * bpow radix2 (e - k)) by (rewrite <- b_at by lia; f_equal; lia).
  replace (bpow radix2 (e - 1)) with (IZR (2 ^ (k - 1)) * bpow radix2 (e - k)) by (rewrite <- b_at by lia; f_equal; lia).
  rewrite plus_IZR, mult_IZR.
  replace ((IZR m * IZR (2 ^ k) + IZR d) * bpow radix2 (e - k) - IZR m * (IZR (2 ^ k) * bpow radix2 (e - k))) with (IZR d * bpow radix2 (e - k)) by ring.
  rewrite Rabs_mult, (Rabs_pos_eq (bpow radix2 (e - k))) by apply bpow_ge_0.
  apply Rmult_lt_compat_r; [apply bpow_gt_0|]. rewrite <- abs_IZR. now apply IZR_lt.
Qed.
Lemma dot2_zero a b x : dot2 rnd64 0 x a b = rnd64 (rnd64 (a * b)).
Proof. unfold dot2. now rewrite Rmult_0_l, !rnd64_0, Rplus_0_l, rnd64_0, Rplus_0_l. Qed.
Lemma dot2_zero' a b x : dot2 rnd64 x 0 a b = rnd64 (rnd64 (a * b)).
Proof. unfold dot2. now rewrite Rmult_0_r, !rnd64_0, Rplus_0_l, rnd64_0, Rplus_0_l. Qed.
Lemma rnd_mul m e x c q k : (-1074 <= e - k)%Z -> (1 <= k)%Z -> (2 ^ 52 < m <= 2 ^ 53)%Z -> x = IZR (c * q) * bpow radix2 (e - k) ->
  (Z.abs (c * q - m * 2 ^ k) < 2 ^ (k - 1))%Z -> rnd64 x = IZR m * bpow radix2 e.
Proof. intros He Hk Hm Hx Hd. apply (rnd_near m e x (c * q - m * 2 ^ k) k); auto. rewrite Hx. do 2 f_equal. ring. Qed.
Ltac by_mul c q k := apply (rnd_mul _ _ _ c q k); [lia|lia|lia|unfold g3, f7; rewrite mult_IZR; match goal with |- context [bpow _ (?a - ?b)] => let c := eval compute in (a - b)%Z in change (a - b)%Z with c end; ring|reflexivity].
Lemma r7g : rnd64 (g3 * 7) = IZR 5254199565265578 * bpow radix2 (-51).
Proof. by_mul 7%Z 6004799503160661%Z 3%Z. Qed.
Lemma r49g : rnd64 (g3 * 49) = IZR 4597424619607381 * bpow radix2 (-48).
Proof. by_mul 49%Z 6004799503160661%Z 6%Z. Qed.
Lemma r21g : rnd64 (21 * g3) = IZR 7881299347898368 * bpow radix2 (-50).
Proof. by_mul 21%Z 6004799503160661%Z 4%Z. Qed.
Lemma r7f : rnd64 (f7 * 7) = IZR 4597424619607382 * bpow radix2 (-48).
Proof. by_mul 7%Z 5254199565265579%Z 3%Z. Qed.
Lemma r_idem x : rnd64 (rnd64 x) = rnd64 x.
Proof. unfold rnd64. apply round_generic; [apply valid_rnd_N|]. apply generic_format_round; [apply FLT_exp_valid; reflexivity|apply valid_rnd_N]. Qed.
Lemma r_int m : (Z.abs m <= 2 ^ 53)%Z -> rnd64 (IZR m) = IZR m.
Proof. intro H. replace (IZR m) with (IZR m * bpow radix2 0) by (cbn; ring). now apply rnd64_exact. Qed.

(** Symmetry: the entries 0,1 and 1,0 differ. *)
Lemma asym_01 : rnd64 (dot2 rnd64 (dot2 rnd64 0 1 3 0) 0 (dot2 rnd64 0 0 3 7) g3 + 0) = IZR 7881299347898368 * bpow radix2 (-50).
Proof.
  rewrite Rplus_0_r, dot2_zero', (dot2_zero 3 7 0). replace (3 * 7) with 21 by ring. rewrite !(r_int 21) by (clear; lia). rewrite !r_idem. apply r21g.
Qed.
Lemma asym_10 : rnd64 (dot2 rnd64 (dot2 rnd64 0 1 g3 0) 0 (dot2 rnd64 0 0 g3 7) 3 + 0) = IZR 7881299347898367 * bpow radix2 (-50).
Proof.
  rewrite Rplus_0_r, dot2_zero', (dot2_zero g3 7 0), !r_idem, r7g.
  replace (IZR 5254199565265578 * bpow radix2 (-51) * 3) with (IZR 7881299347898367 * bpow radix2 (-50)); [apply rnd64_exact; clear; lia|].
  change (-50)%Z with (-51 + 1)%Z. rewrite (b_at (-51) 1) by lia. change (2 ^ 1)%Z with 2%Z. ring.
Qed.

(** A negative variance. *)
Lemma f7_fmt : rnd64 f7 = f7. Proof. apply rnd64_exact; clear; lia. Qed.
Lemma m0 : dot2 rnd64 f7 1 (- g3) 7 = bpow radix2 (-51).
Proof.
  unfold dot2. rewrite Rmult_1_r, Rplus_0_l, f7_fmt, f7_fmt. replace (- g3 * 7) with (- (g3 * 7)) by ring. rewrite rnd64_opp, r7g. unfold f7.
  replace (_ + _) with (IZR 1 * bpow radix2 (-51)) by ring. rewrite (rnd64_exact 1 (-51)) by (clear; lia). ring.
Qed.
Lemma m1 : dot2 rnd64 f7 7 (- g3) 49 = bpow radix2 (-48).
Proof.
  unfold dot2. rewrite Rplus_0_l, r_idem, r7f. replace (- g3 * 49) with (- (g3 * 49)) by ring. rewrite rnd64_opp, r49g.
  replace (_ + _) with (IZR 1 * bpow radix2 (-48)) by ring. rewrite (rnd64_exact 1 (-48)) by (clear; lia). ring.
Qed.
Lemma neg_00 : rnd64 (dot2 rnd64 (dot2 rnd64 f7 1 (- g3) 7) f7 (dot2 rnd64 f7 7 (- g3) 49) (- g3) + 0) = - (IZR 750599937895082 * bpow radix2 (-102)).
Proof.
  rewrite Rplus_0_r, m0, m1. unfold dot2. rewrite Rplus_0_l, r_idem.
  replace (bpow radix2 (-51) * f7) with (IZR 5254199565265579 * bpow radix2 (-102)).
  2: { unfold f7. change (-102)%Z with (-51 + -51)%Z. rewrite (bpow_plus radix2 (-51) (-51)). ring. }
  replace (bpow radix2 (-48) * - g3) with (- (IZR 6004799503160661 * bpow radix2 (-102))).
  2: { unfold g3. change (-102)%Z with (-48 + -54)%Z. rewrite (bpow_plus radix2 (-48) (-54)). ring. }
  rewrite rnd64_opp, !rnd64_exact by (clear; lia).
  replace (_ + _) with (IZR (-750599937895082) * bpow radix2 (-102)) by ring.
  rewrite !rnd64_exact by (clear; lia). replace (IZR (-750599937895082)) with (- IZR 750599937895082) by (rewrite <- opp_IZR; reflexivity). ring.
Qed.
