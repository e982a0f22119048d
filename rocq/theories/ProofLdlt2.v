(** Backward error of the factorization. *)
From Coq Require Import Reals Arith Lra Lia Psatz.
From Flocq Require Import Core.
From Verif Require Import Base ModelLdltFloat SpecFloatOps SpecLdltFloat ProofLdlt ProofStrapdownFloat.
Open Scope R_scope.

(** A unit triangular system has a solution. *)
Lemma upper_solution (l : nat -> nat -> R) k : forall w : nat -> R, exists x : nat -> R, forall j, (j < k)%nat -> x j + sum (fun i => if Nat.ltb j i then l i j * x i else 0) k = w j.
Proof.
  induction k as [|k IH]; intros w; [exists w; intros; lia|].
  destruct (IH (fun j => w j - l k j * w k)) as (x & X). exists (fun i => if Nat.eqb i k then w k else x i). intros j J. cbn [sum]. rewrite Nat.eqb_refl.
  rewrite (sum_ext _ (fun i => if Nat.ltb j i then l i j * x i else 0)); cycle 1.
  { intros i I. destruct (Nat.eqb_spec i k); [lia|reflexivity]. }
  destruct (Nat.eqb_spec j k) as [->|N].
  - rewrite Nat.ltb_irrefl. rewrite (sum_ext _ (fun _ => 0)); [rewrite sum_zero; ring|]. intros i I. destruct (Nat.ltb_spec k i); [lia|reflexivity].
  - pose proof (X j ltac:(lia)) as E. destruct (Nat.ltb_spec j k); [|lia]. lra.
Qed.

Section Pivot.
Variables (l : nat -> nat -> R) (d : nat -> R) (a : nat -> nat -> R) (k : nat) (g lam : R).
Hypothesis l1 : forall i, l i i = 1.
Hypothesis l0 : forall i j, (i < j)%nat -> l i j = 0.
Hypothesis dpos : forall j, (j < k)%nat -> 0 < d j.
Hypothesis asym : forall i j, a i j = a j i.
Hypothesis apos : forall i, (i <= k)%nat -> 0 < a i i.
Hypothesis asq : forall i j, (i <= k)%nat -> (j <= k)%nat -> Rabs (a i j) <= sqrt (a i i) * sqrt (a j j).
Hypothesis G0 : 0 <= g <= 1 / 1000.
Let T i j m := l i m * d m * l j m.
Hypothesis H1 : forall i j, (j < k)%nat -> (j <= i <= k)%nat -> Rabs (a i j - sum (T i j) (S j)) <= g * Rabs (a i j) + 2 * g * sum (fun m => Rabs (T i j m)) (S j).

Lemma Tpos i j : (j < k)%nat -> 0 <= T i i j.
Proof. intros J. unfold T. replace (l i j * d j * l i j) with (d j * (l i j * l i j)) by ring. apply Rmult_le_pos; [apply Rlt_le, dpos, J|apply Rle_0_sqr]. Qed.
Lemma diag_le j : (j < k)%nat -> sum (T j j) (S j) <= 101 / 100 * a j j.
Proof.
  intros J. pose proof (H1 j j J ltac:(lia)) as A. rewrite (sum_ext (fun m => Rabs (T j j m)) (T j j)) in A by (intros m M; apply Rabs_right, Rle_ge, Tpos; lia).
  assert (S0 : 0 <= sum (T j j) (S j)) by (apply sum_pos; intros; apply Tpos; lia). pose proof (apos j ltac:(lia)) as A0. rewrite (Rabs_right (a j j)) in A by lra.
  apply Rabs_le_inv in A. set (s := sum (T j j) (S j)) in *. nra.
Qed.
(** The absolute values of the terms, against the two diagonal sums. *)
Lemma abs_le i j : (j < k)%nat -> sum (fun m => Rabs (T i j m)) (S j) <= sqrt (sum (T i i) (S j)) * sqrt (sum (T j j) (S j)).
Proof.
  intros J. rewrite (sum_ext _ (fun m => (sqrt (d m) * Rabs (l i m)) * (sqrt (d m) * Rabs (l j m)))).
  2:{ intros m M. unfold T. rewrite !Rabs_mult. pose proof (dpos m ltac:(lia)) as D. rewrite (Rabs_right (d m)) by lra.
      replace (Rabs (l i m) * d m * Rabs (l j m)) with (d m * (Rabs (l i m) * Rabs (l j m))) by ring. rewrite <- (sqrt_sqrt (d m)) at 1 by lra. ring. }
  eapply Rle_trans; [apply sum_cs_sqrt; intros; apply Rmult_le_pos; try apply sqrt_pos; apply Rabs_pos|].
  assert (E : forall i, sum (fun m => sqrt (d m) * Rabs (l i m) * (sqrt (d m) * Rabs (l i m))) (S j) = sum (T i i) (S j)).
  { intros i'. apply sum_ext. intros m M. pose proof (dpos m ltac:(lia)) as D. replace (sqrt (d m) * Rabs (l i' m) * (sqrt (d m) * Rabs (l i' m))) with ((sqrt (d m) * sqrt (d m)) * (Rabs (l i' m) * Rabs (l i' m))) by ring.
    rewrite sqrt_sqrt by lra. rewrite <- Rabs_mult, Rabs_right by (apply Rle_ge, Rle_0_sqr). unfold T. ring. }
  cbv beta. rewrite (E i), (E j). apply Rle_refl.
Qed.
Let q := sum (T k k) k.
Let rho i := if Nat.eqb i k then sqrt (a k k + q) else sqrt (a i i).
Hypothesis H2 : Rabs (a k k - sum (T k k) (S k)) <= g * a k k + 2 * g * q.
Lemma q_pos : 0 <= q. Proof. apply sum_pos. intros; apply Tpos; auto. Qed.
Lemma rho_pos i : 0 <= rho i. Proof. unfold rho. destruct (Nat.eqb i k); apply sqrt_pos. Qed.
Lemma rho_a i : (i <= k)%nat -> sqrt (a i i) <= rho i.
Proof. intros I. unfold rho. destruct (Nat.eqb_spec i k) as [->|]; [|lra]. apply sqrt_le_1_alt. pose proof q_pos. lra. Qed.
Lemma part_le i j : (i <= k)%nat -> (j < k)%nat -> (j <= i)%nat -> sqrt (sum (T i i) (S j)) <= 101 / 100 * rho i.
Proof.
  intros I J IJ. pose proof (apos i I) as A. pose proof q_pos as Q. unfold rho. destruct (Nat.eqb_spec i k) as [->|N].
  - apply Rle_trans with (sqrt (a k k + q)); [|pose proof (sqrt_pos (a k k + q)); lra]. apply sqrt_le_1_alt. apply Rle_trans with q; [|lra]. apply sum_mono; [lia|]. intros; apply Tpos; auto.
  - rewrite <- (sqrt_square (101 / 100)) at 1 by lra. rewrite <- sqrt_mult by lra. apply sqrt_le_1_alt.
    apply Rle_trans with (sum (T i i) (S i)); [apply sum_mono; [lia|]; intros; apply Tpos; lia|]. pose proof (diag_le i ltac:(lia)). lra.
Qed.
(** The whole matrix, entry by entry. *)
Lemma full_sum i j : (j <= i <= k)%nat -> sum (T i j) (S k) = sum (T i j) (S j).
Proof. intros H. apply sum_tail; [lia|]. intros m M. unfold T. rewrite (l0 j m) by lia. ring. Qed.
Lemma entry_le i j : (j <= i <= k)%nat -> Rabs (a i j - sum (T i j) (S k)) <= 4 * g * (rho i * rho j).
Proof.
  intros IJ. destruct (Nat.eq_dec j k) as [->|N].
  - replace i with k by lia. eapply Rle_trans; [exact H2|]. unfold rho. rewrite Nat.eqb_refl. pose proof q_pos. pose proof (apos k ltac:(lia)). rewrite sqrt_sqrt by lra.
    assert (0 <= g * a k k) by (apply Rmult_le_pos; lra). assert (0 <= g * q) by (apply Rmult_le_pos; lra). lra.
  - rewrite full_sum by lia. eapply Rle_trans; [apply H1; lia|].
    assert (B1 : Rabs (a i j) <= rho i * rho j).
    { eapply Rle_trans; [apply asq; lia|]. apply Rmult_le_compat; try apply sqrt_pos; apply rho_a; lia. }
    assert (B2 : sum (fun m => Rabs (T i j m)) (S j) <= (101 / 100 * rho i) * (101 / 100 * rho j)).
    { eapply Rle_trans; [apply abs_le; lia|]. apply Rmult_le_compat; try apply sqrt_pos; apply part_le; lia. }
    assert (B3 : 0 <= rho i * rho j) by (apply Rmult_le_pos; apply rho_pos). set (p := rho i * rho j) in *.
    replace (101 / 100 * rho i * (101 / 100 * rho j)) with (10201 / 10000 * p) in B2 by (unfold p; field).
    assert (g * Rabs (a i j) <= g * p) by (apply Rmult_le_compat_l; lra). assert (2 * g * sum (fun m => Rabs (T i j m)) (S j) <= 2 * g * (10201 / 10000 * p)) by (apply Rmult_le_compat_l; lra).
    assert (0 <= g * p) by (apply Rmult_le_pos; lra). lra.
Qed.
Lemma entry_le' i j : (i <= k)%nat -> (j <= k)%nat -> Rabs (a i j - sum (T i j) (S k)) <= 4 * g * (rho i * rho j).
Proof.
  intros I J. destruct (le_ge_dec j i) as [H|H]; [apply entry_le; lia|]. rewrite asym, (sum_ext (T i j) (T j i)) by (intros; unfold T; ring). rewrite (Rmult_comm (rho i)). apply entry_le; lia.
Qed.
Hypothesis pd : forall x, lam * sum (fun i => a i i * (x i * x i)) (S k) <= sum (fun i => sum (fun j => a i j * (x i * x j)) (S k)) (S k).
Hypothesis Lam : 10 * (INR (S k) * g) <= lam <= 1.
Hypothesis Lam0 : 0 < lam.
Hypothesis small : INR (S k) * g <= 1 / 1000.
Lemma pivot_pos : 0 < d k.
Proof.
  destruct (upper_solution l (S k) (fun j => if Nat.eqb j k then 1 else 0)) as (x & X).
  assert (X' : forall j, (j < S k)%nat -> sum (fun i => l i j * x i) (S k) = if Nat.eqb j k then 1 else 0).
  { intros j J. rewrite <- (X j J). transitivity (sum (fun i => (if Nat.eqb i j then x i else 0) + (if Nat.ltb j i then l i j * x i else 0)) (S k)).
    - apply sum_ext. intros i I. destruct (Nat.eqb_spec i j) as [E|N]; destruct (Nat.ltb_spec j i) as [L|L]; try lia.
      + rewrite E, l1. ring.
      + ring.
      + rewrite l0 by lia. ring.
    - rewrite sum_plus. f_equal. rewrite (sum_one _ j) by first [exact J|intros m M N; destruct (Nat.eqb_spec m j); [lia|reflexivity]]. now rewrite Nat.eqb_refl. }
  assert (xk : x k = 1).
  { pose proof (X k ltac:(lia)) as E. rewrite Nat.eqb_refl in E. rewrite (sum_ext _ (fun _ => 0)), sum_zero in E; [lra|]. intros i I. destruct (Nat.ltb_spec k i); [lia|reflexivity]. }
  assert (Q : sum (fun i => sum (fun j => sum (T i j) (S k) * (x i * x j)) (S k)) (S k) = d k).
  { transitivity (sum (fun m => d m * ((if Nat.eqb m k then 1 else 0) * (if Nat.eqb m k then 1 else 0))) (S k)).
    - transitivity (sum (fun i => sum (fun j => sum (fun m => d m * ((l i m * x i) * (l j m * x j))) (S k)) (S k)) (S k)).
      + apply sum_ext. intros i _. apply sum_ext. intros j _. rewrite <- sum_scar. apply sum_ext. intros m _. unfold T. ring.
      + transitivity (sum (fun i => sum (fun m => sum (fun j => d m * ((l i m * x i) * (l j m * x j))) (S k)) (S k)) (S k)).
        { apply sum_ext. intros i _. apply sum_swap. }
        rewrite sum_swap. apply sum_ext. intros m M. rewrite <- (X' m M).
        transitivity (sum (fun i => d m * ((l i m * x i) * sum (fun j => l j m * x j) (S k))) (S k)).
        { apply sum_ext. intros i _. rewrite sum_scal. f_equal. apply sum_scal. }
        rewrite sum_scal. f_equal. apply sum_scar.
    - rewrite (sum_one _ k) by first [lia|intros m M N; destruct (Nat.eqb_spec m k); [lia|ring]]. rewrite Nat.eqb_refl. ring. }
  set (Z := sum (fun i => a i i * (x i * x i)) k). assert (Z0 : 0 <= Z) by (apply sum_pos; intros; apply Rmult_le_pos; [apply Rlt_le, apos; lia|apply Rle_0_sqr]).
  pose proof (pd x) as P. change (sum (fun i => a i i * (x i * x i)) (S k)) with (Z + a k k * (x k * x k)) in P. rewrite xk in P.
  set (n := INR (S k)) in *. pose proof q_pos as Q0. pose proof (apos k ltac:(lia)) as A0.
  assert (D : Rabs (sum (fun i => sum (fun j => a i j * (x i * x j)) (S k)) (S k) - d k) <= 4 * g * (n * (Z + (a k k + q)))).
  { rewrite <- Q at 1. rewrite <- sum_minus. rewrite (sum_ext _ (fun i => sum (fun j => (a i j - sum (T i j) (S k)) * (x i * x j)) (S k))).
    2:{ intros i _. rewrite <- sum_minus. apply sum_ext. intros j _. ring. }
    eapply Rle_trans; [apply sum_abs|]. apply Rle_trans with (sum (fun i => sum (fun j => 4 * g * ((rho i * Rabs (x i)) * (rho j * Rabs (x j)))) (S k)) (S k)).
    - apply sum_le. intros i I. eapply Rle_trans; [apply sum_abs|]. apply sum_le. intros j J. rewrite !Rabs_mult.
      replace (4 * g * (rho i * Rabs (x i) * (rho j * Rabs (x j)))) with ((4 * g * (rho i * rho j)) * (Rabs (x i) * Rabs (x j))) by ring.
      apply Rmult_le_compat_r; [apply Rmult_le_pos; apply Rabs_pos|]. apply entry_le'; lia.
    - rewrite (sum_ext _ (fun i => 4 * g * sum (fun j => (rho i * Rabs (x i)) * (rho j * Rabs (x j))) (S k))) by (intros; apply sum_scal).
      rewrite sum_scal, (sum_outer (fun i => rho i * Rabs (x i))). apply Rmult_le_compat_l; [lra|]. eapply Rle_trans; [apply sum_sq|]. fold n.
      apply Rmult_le_compat_l; [apply pos_INR|]. cbn [sum]. apply Req_le. f_equal.
      + apply sum_ext. intros i I. unfold rho. destruct (Nat.eqb_spec i k); [lia|]. replace (sqrt (a i i) * Rabs (x i) * (sqrt (a i i) * Rabs (x i))) with ((sqrt (a i i) * sqrt (a i i)) * (Rabs (x i) * Rabs (x i))) by ring.
        rewrite sqrt_sqrt by (apply Rlt_le, apos; lia). rewrite <- Rabs_mult, Rabs_right by (apply Rle_ge, Rle_0_sqr). ring.
      + rewrite xk, Rabs_R1. unfold rho. rewrite Nat.eqb_refl. rewrite !Rmult_1_r. apply sqrt_sqrt. lra. }
  apply Rabs_le_inv in D. set (QA := sum (fun i => sum (fun j => a i j * (x i * x j)) (S k)) (S k)) in *.
  pose proof H2 as E. cbn [sum] in E. fold q in E. unfold T in E at 1. rewrite l1 in E. apply Rabs_le_inv in E. set (e := n * g) in *.
  assert (e0 : 0 <= e) by (apply Rmult_le_pos; [apply pos_INR|lra]). replace (4 * g * (n * (Z + (a k k + q)))) with (4 * e * (Z + (a k k + q))) in D by (unfold e; ring).
  set (aa := a k k) in *. set (D0 := d k) in *. clearbody QA Z q e aa D0.
  assert (g * q <= 1 / 1000 * q) by (apply Rmult_le_compat_r; lra). assert (g * aa <= 1 / 1000 * aa) by (apply Rmult_le_compat_r; lra).
  assert (4 * e * q <= 4 * (1 / 1000) * q) by (apply Rmult_le_compat_r; lra).
  assert (LZ : 10 * e * (Z + aa) <= lam * (Z + aa)) by (apply Rmult_le_compat_r; lra).
  assert (QB : q <= 11 / 10 * aa).
  { assert (0 <= e * (Z + aa)) by (apply Rmult_le_pos; lra). nra. }
  assert (e * q <= e * (11 / 10 * aa)) by (apply Rmult_le_compat_l; lra).
  assert (0 <= e * Z) by (apply Rmult_le_pos; lra). assert (0 <= e * aa) by (apply Rmult_le_pos; lra).
  destruct (Rle_lt_dec e 0) as [e'|e'].
  - replace e with 0 in * by lra. assert (0 < lam * (Z + aa)) by (apply Rmult_lt_0_compat; lra). nra.
  - assert (0 < e * aa) by (apply Rmult_lt_0_compat; lra). nra.
Qed.
End Pivot.
