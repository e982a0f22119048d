(** Finite sums of reals over an initial segment of the natural numbers. *)
From Coq Require Import Reals Arith Lra Lia Psatz.
From Verif Require Import SpecLdltFloat.
Open Scope R_scope.

Lemma sum_ext f g k : (forall j, (j < k)%nat -> f j = g j) -> sum f k = sum g k.
Proof. induction k as [|k IH]; intros H; [reflexivity|]. cbn [sum]. rewrite IH, H by auto with arith. reflexivity. Qed.
Lemma sum_plus f g k : sum (fun j => f j + g j) k = sum f k + sum g k.
Proof. induction k as [|k IH]; cbn [sum]; [ring|]. rewrite IH. ring. Qed.
Lemma sum_minus f g k : sum (fun j => f j - g j) k = sum f k - sum g k.
Proof. induction k as [|k IH]; cbn [sum]; [ring|]. rewrite IH. ring. Qed.
Lemma sum_scal c f k : sum (fun j => c * f j) k = c * sum f k.
Proof. induction k as [|k IH]; cbn [sum]; [ring|]. rewrite IH. ring. Qed.
Lemma sum_scar c f k : sum (fun j => f j * c) k = sum f k * c.
Proof. induction k as [|k IH]; cbn [sum]; [ring|]. rewrite IH. ring. Qed.
Lemma sum_zero k : sum (fun _ => 0) k = 0.
Proof. induction k as [|k IH]; cbn [sum]; [ring|]. rewrite IH. ring. Qed.
Lemma sum_le f g k : (forall j, (j < k)%nat -> f j <= g j) -> sum f k <= sum g k.
Proof. induction k as [|k IH]; intros H; cbn [sum]; [lra|]. pose proof (H k ltac:(lia)). pose proof (IH ltac:(auto with arith)). lra. Qed.
Lemma sum_pos f k : (forall j, (j < k)%nat -> 0 <= f j) -> 0 <= sum f k.
Proof. intros H. rewrite <- (sum_zero k). now apply sum_le. Qed.
Lemma sum_abs f k : Rabs (sum f k) <= sum (fun j => Rabs (f j)) k.
Proof. induction k as [|k IH]; cbn [sum]; [rewrite Rabs_R0; lra|]. eapply Rle_trans; [apply Rabs_triang|]. lra. Qed.
Lemma sum_swap f m n : sum (fun i => sum (f i) m) n = sum (fun j => sum (fun i => f i j) n) m.
Proof.
  induction n as [|n IH]; cbn [sum].
  - symmetry. apply sum_zero.
  - rewrite IH, <- sum_plus. reflexivity.
Qed.
Lemma sum_mono f k n : (k <= n)%nat -> (forall j, (j < n)%nat -> 0 <= f j) -> sum f k <= sum f n.
Proof.
  intros K H. induction n as [|n IH]; [replace k with 0%nat by lia; lra|]. destruct (Nat.eq_dec k (S n)) as [->|]; [lra|].
  cbn [sum]. pose proof (H n ltac:(lia)). pose proof (IH ltac:(lia) ltac:(auto with arith)). lra.
Qed.
Lemma sum_tail f k n : (k <= n)%nat -> (forall j, (k <= j < n)%nat -> f j = 0) -> sum f n = sum f k.
Proof.
  intros K H. induction n as [|n IH]; [now replace k with 0%nat by lia|]. destruct (Nat.eq_dec k (S n)) as [->|]; [reflexivity|].
  cbn [sum]. rewrite (H n ltac:(lia)), IH; [ring|lia|]. intros; apply H; lia.
Qed.
Lemma sum_one f k n : (k < n)%nat -> (forall j, (j < n)%nat -> j <> k -> f j = 0) -> sum f n = f k.
Proof.
  intros K H. rewrite (sum_tail f (S k) n); [|lia|intros; apply H; lia]. cbn [sum].
  rewrite (sum_tail f 0 k); [cbn; ring|lia|]. intros; apply H; lia.
Qed.
Lemma sum_in f k n : (k < n)%nat -> (forall j, (j < n)%nat -> 0 <= f j) -> f k <= sum f n.
Proof. intros K H. eapply Rle_trans; [|apply (sum_mono f (S k) n); [lia|exact H]]. cbn [sum]. pose proof (sum_pos f k ltac:(intros; apply H; lia)). lra. Qed.
(** The square of a sum. *)
Lemma sum_sq f k : sum f k * sum f k <= INR k * sum (fun j => f j * f j) k.
Proof.
  induction k as [|k IH]; [cbn; lra|]. rewrite S_INR. cbn [sum]. set (s := sum f k) in *. set (q := sum (fun j => f j * f j) k) in *. set (x := f k).
  destruct k as [|k]; [cbn in s, q; unfold s, q; cbn; nra|].
  assert (K : 0 < INR (S k)) by (apply lt_0_INR; lia). set (n := INR (S k)) in *.
  assert (2 * (s * x) <= q + n * (x * x)).
  { assert (0 <= (s - n * x) * (s - n * x)) by apply Rle_0_sqr. assert (n * (2 * (s * x)) <= n * (q + n * (x * x))) by nra. now apply Rmult_le_reg_l with n. }
  nra.
Qed.
(** The inequality of Cauchy and Schwarz. *)
Lemma sum_cs f g k : sum (fun j => f j * g j) k * sum (fun j => f j * g j) k <= sum (fun j => f j * f j) k * sum (fun j => g j * g j) k.
Proof.
  induction k as [|k IH]; [cbn; lra|]. cbn [sum]. set (s := sum (fun j => f j * g j) k) in *. set (p := sum (fun j => f j * f j) k) in *. set (q := sum (fun j => g j * g j) k) in *.
  assert (P : 0 <= p) by (apply sum_pos; intros; apply Rle_0_sqr). assert (Q : 0 <= q) by (apply sum_pos; intros; apply Rle_0_sqr).
  set (x := f k). set (y := g k).
  assert (A : 2 * (s * (x * y)) <= p * (y * y) + q * (x * x)).
  { assert (T : Rabs (s * (x * y)) <= sqrt (p * (y * y)) * sqrt (q * (x * x))).
    { rewrite <- sqrt_mult by (apply Rmult_le_pos; auto; apply Rle_0_sqr). rewrite <- sqrt_Rsqr_abs. apply sqrt_le_1_alt. unfold Rsqr.
      replace (s * (x * y) * (s * (x * y))) with (s * s * ((x * y) * (x * y))) by ring. replace (p * (y * y) * (q * (x * x))) with (p * q * ((x * y) * (x * y))) by ring.
      apply Rmult_le_compat_r; [apply Rle_0_sqr|exact IH]. }
    pose proof (Rle_abs (s * (x * y))). set (u := sqrt (p * (y * y))) in *. set (v := sqrt (q * (x * x))) in *.
    assert (u * u = p * (y * y)) by (apply sqrt_sqrt, Rmult_le_pos; auto; apply Rle_0_sqr). assert (v * v = q * (x * x)) by (apply sqrt_sqrt, Rmult_le_pos; auto; apply Rle_0_sqr).
    pose proof (Rle_0_sqr (u - v)) as W. unfold Rsqr in W. lra. }
  nra.
Qed.
Lemma sum_cs_sqrt f g k : (forall j, (j < k)%nat -> 0 <= f j) -> (forall j, (j < k)%nat -> 0 <= g j) ->
  sum (fun j => f j * g j) k <= sqrt (sum (fun j => f j * f j) k) * sqrt (sum (fun j => g j * g j) k).
Proof.
  intros F G. rewrite <- sqrt_mult by (apply sum_pos; intros; apply Rle_0_sqr). rewrite <- (sqrt_square (sum (fun j => f j * g j) k)) by (apply sum_pos; intros; apply Rmult_le_pos; auto).
  apply sqrt_le_1_alt, sum_cs.
Qed.
(** A double sum of products of absolute values. *)
Lemma sum_outer f k : sum (fun i => sum (fun j => f i * f j) k) k = sum f k * sum f k.
Proof. rewrite (sum_ext _ (fun i => f i * sum f k)) by (intros; apply sum_scal). apply sum_scar. Qed.
