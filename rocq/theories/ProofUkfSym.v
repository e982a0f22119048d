(** One entry of an unscented prediction in doubles, and the entry opposite. *)
From Coq Require Import Reals ZArith Lra Lia.
From Flocq Require Import Core.
From Verif Require Import Base ModelDate ProofRnd ProofFilterFloat1.
Open Scope R_scope.

Definition h7 : R := IZR 5254199565265578 * bpow radix2 (-55).
Lemma r_h7 : rnd64 (7 / 16 * g3) = h7.
Proof.
  unfold h7. apply (rnd_mul _ _ _ 7%Z 6004799503160661%Z 3%Z); [lia|lia|lia| |reflexivity].
  unfold g3. rewrite mult_IZR. change (-55 - 3)%Z with (-58)%Z. change (-54)%Z with (-58 + 4)%Z. rewrite (b_at (-58) 4) by lia. change (2 ^ 4)%Z with 16%Z. field.
Qed.
Lemma r_h48 : rnd64 (7 / 16 * 48) = 21.
Proof. replace (7 / 16 * 48) with 21 by field. apply r_int. lia. Qed.
Definition p01 : R := IZR 7881299347898368 * bpow radix2 (-50).
Definition p10 : R := IZR 7881299347898367 * bpow radix2 (-50).
Lemma r_p01 : rnd64 (21 * g3) = p01. Proof. apply r21g. Qed.
Lemma r_p10 : rnd64 (h7 * 48) = p10.
Proof.
  unfold h7, p10. replace (IZR 5254199565265578 * bpow radix2 (-55) * 48) with (IZR 7881299347898367 * bpow radix2 (-50)); [apply rnd64_exact; clear; lia|].
  change (-50)%Z with (-55 + 5)%Z. rewrite (b_at (-55) 5) by lia. change (2 ^ 5)%Z with 32%Z. ring.
Qed.
Lemma g3_fmt : rnd64 g3 = g3. Proof. apply rnd64_exact; clear; lia. Qed.
Lemma h7_fmt : rnd64 h7 = h7. Proof. apply rnd64_exact; clear; lia. Qed.
Lemma dbl m e : (Z.abs m <= 2 ^ 53)%Z -> (-1074 <= e)%Z -> rnd64 (IZR m * bpow radix2 e + IZR m * bpow radix2 e) = 2 * (IZR m * bpow radix2 e).
Proof.
  intros H1 H2. replace (IZR m * bpow radix2 e + IZR m * bpow radix2 e) with (IZR m * bpow radix2 (e + 1)); [rewrite rnd64_exact by (clear - H1 H2; lia)|]; rewrite (b_at e 1) by lia; change (2 ^ 1)%Z with 2%Z; ring.
Qed.

(** The five steps of each sum. *)
Definition five (c t0 t1 t2 t3 t4 : R) : R := rnd64 (rnd64 (rnd64 (rnd64 (rnd64 (c + t0) + t1) + t2) + t3) + t4).
Lemma five_mean x y : rnd64 (7 / 16 * x) = y -> rnd64 y = y ->
  five 0 (rnd64 (1 / 8 * 0)) (rnd64 (7 / 16 * x)) (rnd64 (7 / 16 * - x)) (rnd64 (0 * 0)) (rnd64 (0 * 0)) = 0.
Proof.
  intros E F. unfold five. replace (7 / 16 * - x) with (- (7 / 16 * x)) by ring. rewrite rnd64_opp, E, Rmult_0_r, Rmult_0_l, !rnd64_0, Rplus_0_l, rnd64_0, Rplus_0_l, F.
  replace (y + - y) with 0 by ring. now rewrite rnd64_0, Rplus_0_l, rnd64_0, Rplus_0_l, rnd64_0.
Qed.
Definition term (w x y : R) : R := rnd64 (rnd64 (w * rnd64 (x - 0)) * rnd64 (y - 0)).
Lemma five_scatter x y x1 m e : (Z.abs m <= 2 ^ 53)%Z -> (-1074 <= e)%Z -> rnd64 x = x -> rnd64 y = y -> rnd64 (7 / 16 * x) = x1 -> rnd64 (x1 * y) = IZR m * bpow radix2 e ->
  five 0 (term (1 / 8) 0 0) (term (7 / 16) x y) (term (7 / 16) (- x) (- y)) (term 0 0 0) (term 0 0 0) = 2 * (IZR m * bpow radix2 e).
Proof.
  intros M E X Y X1 Z. unfold five, term. rewrite !Rminus_0_r, !rnd64_opp, X, Y, X1. replace (7 / 16 * - x) with (- (7 / 16 * x)) by ring. rewrite rnd64_opp, X1.
  replace (- x1 * - y) with (x1 * y) by ring. rewrite Z, rnd64_0, !Rmult_0_r, rnd64_0, Rplus_0_l, rnd64_0, Rplus_0_l. rewrite <- Z at 1. rewrite r_idem, Z.
  rewrite dbl by assumption. rewrite ?Rplus_0_r. assert (D : rnd64 (2 * (IZR m * bpow radix2 e)) = 2 * (IZR m * bpow radix2 e)). { rewrite <- (dbl m e M E) at 1. rewrite r_idem. now apply dbl. }
  now rewrite ?Rplus_0_r, !D.
Qed.
Lemma mean48 : five 0 (rnd64 (1 / 8 * 0)) (rnd64 (7 / 16 * 48)) (rnd64 (7 / 16 * - (48))) (rnd64 (0 * 0)) (rnd64 (0 * 0)) = 0.
Proof. apply (five_mean 48 21); [apply r_h48|apply r_int; lia]. Qed.
Lemma meang3 : five 0 (rnd64 (1 / 8 * 0)) (rnd64 (7 / 16 * g3)) (rnd64 (7 / 16 * - g3)) (rnd64 (0 * 0)) (rnd64 (0 * 0)) = 0.
Proof. apply (five_mean g3 h7); [apply r_h7|apply h7_fmt]. Qed.
Lemma entry01 : five 0 (term (1 / 8) 0 0) (term (7 / 16) 48 g3) (term (7 / 16) (- (48)) (- g3)) (term 0 0 0) (term 0 0 0) = 2 * p01.
Proof. apply (five_scatter _ _ 21); [lia|lia|apply r_int; lia|apply g3_fmt|apply r_h48|apply r_p01]. Qed.
Lemma entry10 : five 0 (term (1 / 8) 0 0) (term (7 / 16) g3 48) (term (7 / 16) (- g3) (- (48))) (term 0 0 0) (term 0 0 0) = 2 * p10.
Proof. apply (five_scatter _ _ h7); [lia|lia|apply g3_fmt|apply r_int; lia|apply r_h7|apply r_p10]. Qed.
Lemma entries_differ : 2 * p01 <> 2 * p10.
Proof. unfold p01, p10. pose proof (bpow_gt_0 radix2 (-50)). lra. Qed.
