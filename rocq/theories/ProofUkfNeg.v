(** One measurement of one state in doubles, computed step by step. *)
From Coq Require Import Reals ZArith Lra Lia.
From Flocq Require Import Core.
From Verif Require Import Base ModelDate ProofRnd ProofFilterFloat1.
Open Scope R_scope.

Definition si21 : R := IZR 5228668955133093 * bpow radix2 (-62).
Definition k21 : R := IZR 6862628003612185 * bpow radix2 (-57).
Lemma r_si : rnd64 (1 / 882) = si21.
Proof. unfold si21. apply rnd64_is; [lia|lia|]. change (-62 - 1)%Z with (-63)%Z. cbn. apply Rabs_def1; lra. Qed.
Lemma r_k : rnd64 (42 * si21) = k21.
Proof. unfold k21. apply (rnd_mul _ _ _ 42%Z 5228668955133093%Z 5%Z); [lia|lia|lia| |reflexivity]. unfold si21. rewrite mult_IZR. change (-57 - 5)%Z with (-62)%Z. ring. Qed.
Definition ks21 : R := IZR (42 * 2 ^ 47 + 1) * bpow radix2 (-47).
Lemma r_ks : rnd64 (k21 * 882) = ks21.
Proof.
  unfold ks21. apply (rnd_mul _ _ _ 882%Z 6862628003612185%Z 10%Z); [lia|lia|lia| |reflexivity].
  unfold k21. rewrite mult_IZR. change (-47 - 10)%Z with (-57)%Z. ring.
Qed.
Lemma r_ksk : rnd64 (ks21 * k21) = 2 + bpow radix2 (-51).
Proof.
  replace (2 + bpow radix2 (-51)) with (IZR (2 ^ 52 + 1) * bpow radix2 (-51)) by (cbn; lra). apply (rnd_mul _ _ _ (42 * 2 ^ 47 + 1)%Z 6862628003612185%Z 53%Z); [lia|lia|lia| |reflexivity].
  unfold ks21, k21. rewrite mult_IZR. change (-51 - 53)%Z with (-47 + -57)%Z. rewrite (bpow_plus radix2 (-47) (-57)). ring.
Qed.
Lemma r_neg : rnd64 (2 + - (2 + bpow radix2 (-51))) = - bpow radix2 (-51).
Proof. replace (2 + - (2 + bpow radix2 (-51))) with (IZR (-1) * bpow radix2 (-51)) by ring. rewrite rnd64_exact by (clear; lia). ring. Qed.
(** The noise is lost in the sum. *)
Definition noise21 : R := bpow radix2 (-60).
Lemma r_noise : rnd64 (noise21 + 0) = noise21.
Proof. unfold noise21. replace (bpow radix2 (-60) + 0) with (IZR 1 * bpow radix2 (-60)) by ring. rewrite rnd64_exact by (clear; lia). ring. Qed.
Lemma r_lost : rnd64 (noise21 + 441) = 441.
Proof.
  unfold noise21. replace 441 with (IZR (441 * 2 ^ 44) * bpow radix2 (-44)) at 2 by (cbn; lra). apply rnd64_is; [lia|lia|]. change (-44 - 1)%Z with (-45)%Z. cbn. apply Rabs_def1; lra.
Qed.

(** The sums over three points. *)
Definition three (c t0 t1 t2 : R) : R := rnd64 (rnd64 (rnd64 (c + t0) + t1) + t2).
Definition tm3 (w x y : R) : R := rnd64 (rnd64 (w * rnd64 (x - 0)) * rnd64 (y - 0)).
Lemma r_half m : (Z.abs m <= 2 ^ 53)%Z -> rnd64 (IZR m / 2) = IZR m / 2.
Proof. intro H. replace (IZR m / 2) with (IZR m * bpow radix2 (-1)) by (cbn; lra). now apply rnd64_exact. Qed.
Lemma three_mean : three 0 (rnd64 (1 / 2 * 0)) (rnd64 (1 / 4 * 42)) (rnd64 (1 / 4 * - (42))) = 0.
Proof.
  unfold three. replace (1 / 2 * 0) with 0 by ring. replace (1 / 4 * 42) with (21 / 2) by field. replace (1 / 4 * - (42)) with (- (21 / 2)) by field.
  rewrite rnd64_opp, rnd64_0, Rplus_0_l, rnd64_0, Rplus_0_l, (r_half 21) by lia. rewrite (r_half 21) by lia. replace (21 / 2 + - (21 / 2)) with 0 by ring. apply rnd64_0.
Qed.
Lemma tm_0 w : tm3 w 0 0 = 0.
Proof. unfold tm3. now rewrite Rminus_0_r, rnd64_0, Rmult_0_r, rnd64_0. Qed.
Lemma tm_42 : tm3 (1 / 4) 42 42 = 441.
Proof. unfold tm3. rewrite Rminus_0_r, (r_int 42) by lia. replace (1 / 4 * 42) with (21 / 2) by field. rewrite (r_half 21) by lia. replace (21 / 2 * 42) with 441 by field. apply r_int. lia. Qed.
Lemma tm_42n : tm3 (1 / 4) (- (42)) (- (42)) = 441.
Proof. rewrite <- tm_42. unfold tm3. rewrite !Rminus_0_r, !rnd64_opp. replace (1 / 4 * - rnd64 42) with (- (1 / 4 * rnd64 42)) by ring. rewrite rnd64_opp. f_equal. ring. Qed.
Lemma tm_2 : tm3 (1 / 4) 2 42 = 21.
Proof. unfold tm3. rewrite !Rminus_0_r, (r_int 42), (r_int 2) by lia. replace (1 / 4 * 2) with (1 / 2) by field. rewrite (r_half 1) by lia. replace (1 / 2 * 42) with 21 by field. apply r_int. lia. Qed.
Lemma tm_2n : tm3 (1 / 4) (- (2)) (- (42)) = 21.
Proof. rewrite <- tm_2. unfold tm3. rewrite !Rminus_0_r, !rnd64_opp. replace (1 / 4 * - rnd64 2) with (- (1 / 4 * rnd64 2)) by ring. rewrite rnd64_opp. f_equal. ring. Qed.
Lemma three_S : three noise21 (tm3 (1 / 2) 0 0) (tm3 (1 / 4) 42 42) (tm3 (1 / 4) (- (42)) (- (42))) = 882.
Proof. unfold three. rewrite tm_0, tm_42, tm_42n, r_noise, r_lost. replace (441 + 441) with 882 by ring. apply r_int. lia. Qed.
Lemma three_T : three 0 (tm3 (1 / 2) 0 0) (tm3 (1 / 4) 2 42) (tm3 (1 / 4) (- (2)) (- (42))) = 42.
Proof. unfold three. rewrite tm_0, tm_2, tm_2n, Rplus_0_l, rnd64_0, Rplus_0_l, (r_int 21) by lia. replace (21 + 21) with 42 by ring. apply r_int. lia. Qed.
