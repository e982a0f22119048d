(** Elimination with the largest pivot: residuals and growth. *)
From Coq Require Import Reals Arith Lra Lia Psatz.
From Flocq Require Import Core.
From Verif Require Import Base ModelLdltFloat ModelLuFloat SpecFloatOps SpecLdltFloat ProofLdlt ProofLdlt3 ProofLdlt4 ProofLdlt5 ProofStrapdownFloat.
Open Scope R_scope.

Lemma biggest_ok v k m : (k <= biggest v k m <= k + m)%nat /\ forall i, (k <= i <= k + m)%nat -> Rabs (v i) <= Rabs (v (biggest v k m)).
Proof.
  induction m as [|m [B IH]]; cbn [biggest].
  - split; [lia|]. intros i I. replace i with k by lia. lra.
  - destruct (Rlt_dec (Rabs (v (biggest v k m))) (Rabs (v (k + S m)%nat))) as [L|L]; (split; [lia|]); intros i I; (destruct (Nat.eq_dec i (k + S m)) as [->|N]; [lra|]); pose proof (IH i ltac:(lia)); lra.
Qed.
Lemma swap_lt k q i n : (k < n)%nat -> (q < n)%nat -> (i < n)%nat -> (swap k q i < n)%nat.
Proof. intros. unfold swap. destruct (Nat.eqb_spec i k); [assumption|]. destruct (Nat.eqb_spec i q); assumption. Qed.
Lemma swap_lo k q i : (k <= q)%nat -> (i < k)%nat -> swap k q i = i.
Proof. intros. unfold swap. destruct (Nat.eqb_spec i k); [lia|]. destruct (Nat.eqb_spec i q); [lia|reflexivity]. Qed.
Lemma swap_hi k q i : (k <= q)%nat -> (k <= i)%nat -> (k <= swap k q i)%nat.
Proof. intros. unfold swap. destruct (Nat.eqb_spec i k); [lia|]. destruct (Nat.eqb_spec i q); lia. Qed.
Lemma swap_k k q : swap k q k = q.
Proof. unfold swap. now rewrite Nat.eqb_refl. Qed.
Lemma sum_swap_rows f k q n : (k < n)%nat -> (q < n)%nat -> sum (fun i => f (swap k q i)) n = sum f n.
Proof.
  intros K Q. apply Rminus_diag_uniq. rewrite <- sum_minus. destruct (Nat.eq_dec k q) as [->|N].
  - rewrite (sum_ext _ (fun _ => 0)); [apply sum_zero|]. intros i I. unfold swap. destruct (Nat.eqb_spec i q) as [->|]; ring.
  - rewrite (sum_two _ k q n K Q N).
    + rewrite swap_k. unfold swap. destruct (Nat.eqb_spec q k); [congruence|]. rewrite Nat.eqb_refl. ring.
    + intros i I A B. unfold swap. destruct (Nat.eqb_spec i k); [congruence|]. destruct (Nat.eqb_spec i q); [congruence|]. ring.
Qed.

Section Lu.
Variables (r : R -> R) (msub : R -> nat -> (nat -> R) -> (nat -> R) -> R) (a : nat -> nat -> R) (n : nat) (M : R).
Hypothesis Hr : rel_ok r. Hypothesis Hm : msub_ok msub. Hypothesis Hn : INR n <= 1000000.
Let g := 101 / 100 * ((INR n + 2) * u64).
Hypothesis aM : forall i j, (i < n)%nat -> (j < n)%nat -> Rabs (a i j) <= M.
Let Gr := g_range n Hn.

Definition good (k : nat) (s : nat -> nat) (l u : nat -> nat -> R) : Prop :=
  (forall i, (i < n)%nat -> (s i < n)%nat) /\ (forall f, sum (fun i => f (s i)) n = sum f n) /\
  (forall j, (j < k)%nat -> u j j <> 0) /\
  (forall i j, (j < k)%nat -> (j < i < n)%nat -> Rabs (l i j) <= 1 + u64) /\
  (forall i j, (i < k)%nat -> (i <= j < n)%nat ->
     Rabs (u i j - (a (s i) j - sum (fun m => l i m * u m j) i)) <= g * (Rabs (a (s i) j) + sum (fun m => Rabs (l i m * u m j)) i)) /\
  (forall i j, (j < k)%nat -> (j < i < n)%nat ->
     Rabs (l i j * u j j - (a (s i) j - sum (fun m => l i m * u m j) j)) <= g * (Rabs (a (s i) j) + sum (fun m => Rabs (l i m * u m j)) j) + g * Rabs (l i j * u j j)) /\
  (forall i j, (j < i)%nat -> u i j = 0).

Lemma lu_step k s l u : (k < n)%nat -> good k s l u ->
  let v i := msub (a (s i) k) k (l i) (fun m => u m k) in
  let q := biggest v k (n - 1 - k) in
  v q <> 0 -> good (S k) (fun i => s (swap k q i)) (fun i j => if andb (Nat.eqb j k) (Nat.ltb k i) then r (v (swap k q i) / v q) else l (swap k q i) j)
    (fun i j => if andb (Nat.eqb i k) (Nat.leb k j) then msub (a (s q) j) k (l q) (fun m => u m j) else u i j).
Proof.
  intros K (S1 & S2 & D & L1 & U1 & L2 & U0) v q Z. destruct (biggest_ok v k (n - 1 - k)) as [Bq Bm]. fold q in Bq, Bm.
  set (s' := fun i => s (swap k q i)). set (l' := fun i j => if andb (Nat.eqb j k) (Nat.ltb k i) then r (v (swap k q i) / v q) else l (swap k q i) j).
  set (u' := fun i j => if andb (Nat.eqb i k) (Nat.leb k j) then msub (a (s q) j) k (l q) (fun m => u m j) else u i j).
  assert (uold : forall i j, (i < k)%nat -> u' i j = u i j) by (intros i j I; unfold u'; destruct (Nat.eqb_spec i k); [lia|reflexivity]).
  assert (unew : forall j, (k <= j)%nat -> u' k j = msub (a (s q) j) k (l q) (fun m => u m j)) by (intros j J; unfold u'; rewrite Nat.eqb_refl; destruct (Nat.leb_spec k j); [reflexivity|lia]).
  assert (lold : forall i j, (j < k)%nat -> l' i j = l (swap k q i) j) by (intros i j J; unfold l'; destruct (Nat.eqb_spec j k); [lia|reflexivity]).
  assert (lnew : forall i, (k < i)%nat -> l' i k = r (v (swap k q i) / v q)) by (intros i I; unfold l'; rewrite Nat.eqb_refl; destruct (Nat.ltb_spec k i); [reflexivity|lia]).
  assert (ukk : u' k k = v q) by (rewrite unew by lia; reflexivity).
  assert (SL : forall i j m, (m <= k)%nat -> sum (fun m => l' i m * u' m j) m = sum (fun m => l (swap k q i) m * u m j) m).
  { intros i j m H. apply sum_ext. intros t T. rewrite lold, uold by lia. reflexivity. }
  assert (SA : forall i j m, (m <= k)%nat -> sum (fun m => Rabs (l' i m * u' m j)) m = sum (fun m => Rabs (l (swap k q i) m * u m j)) m).
  { intros i j m H. apply sum_ext. intros t T. rewrite lold, uold by lia. reflexivity. }
  assert (hi : forall i, (k < i < n)%nat -> (k <= swap k q i < n)%nat) by (intros i I; split; [apply swap_hi; lia|apply swap_lt; lia]).
  split; [intros i I; apply S1, swap_lt; lia|]. split; [|split; [|split; [|split; [|split]]]].
  - intros f. transitivity (sum (fun i => f (s i)) n); [|apply S2]. apply (sum_swap_rows (fun i => f (s i))); lia.
  - intros j J. destruct (Nat.eq_dec j k) as [->|]; [now rewrite ukk|]. rewrite uold by lia. apply D. lia.
  - intros i j J I. destruct (Nat.eq_dec j k) as [->|].
    + rewrite lnew by lia. pose proof (Bm (swap k q i)) as B. destruct (hi i ltac:(lia)). specialize (B ltac:(lia)).
      assert (Q : Rabs (v (swap k q i) / v q) <= 1). { pose proof (Rabs_pos_lt _ Z). unfold Rdiv. rewrite Rabs_mult, Rabs_inv. apply Rmult_le_reg_r with (Rabs (v q)); [assumption|]. rewrite Rmult_assoc, Rinv_l by lra. lra. }
      set (x := v (swap k q i) / v q) in *. pose proof (Hr x) as E. pose proof u64_bounds. pose proof (Rabs_pos x). replace (r x) with ((r x - x) + x) by ring. eapply Rle_trans; [apply Rabs_triang|]. nra.
    + rewrite lold by lia. apply L1; [lia|]. destruct (Nat.lt_ge_cases i k); [rewrite swap_lo by lia; lia|]. pose proof (swap_hi k q i ltac:(lia) ltac:(lia)). pose proof (swap_lt k q i n ltac:(lia) ltac:(lia) ltac:(lia)). lia.
  - intros i j I J. rewrite SL, SA by lia. destruct (Nat.eq_dec i k) as [->|].
    + rewrite unew by lia. unfold s'. rewrite swap_k. apply (msub_g msub n Hm Hn). lia.
    + rewrite uold by lia. unfold s'. rewrite swap_lo by lia. apply U1; lia.
  - intros i j J I. destruct (Nat.eq_dec j k) as [->|].
    + rewrite SL, SA, ukk, lnew by lia. unfold s'. destruct (ProofLdlt3.quot r Hr (v (swap k q i)) (v q) Z) as [_ Q]. set (w := r (v (swap k q i) / v q) * v q) in *.
      pose proof (msub_g msub n Hm Hn (a (s (swap k q i)) k) k (l (swap k q i)) (fun m => u m k) ltac:(lia)) as E. fold g in E. change (msub (a (s (swap k q i)) k) k (l (swap k q i)) (fun m => u m k)) with (v (swap k q i)) in E.
      set (A := a (s (swap k q i)) k - sum (fun m => l (swap k q i) m * u m k) k) in *. replace (w - A) with ((v (swap k q i) - A) + (w - v (swap k q i))) by ring.
      eapply Rle_trans; [apply Rabs_triang|]. apply Rplus_le_compat; [exact E|]. eapply Rle_trans; [exact Q|]. apply Rmult_le_compat_r; [apply Rabs_pos|]. pose proof u64_bounds. fold g in Gr. lra.
    + rewrite SL, SA, uold, lold by lia. unfold s'. apply L2; [lia|]. destruct (Nat.lt_ge_cases i k); [rewrite swap_lo by lia; lia|]. pose proof (swap_hi k q i ltac:(lia) ltac:(lia)). pose proof (swap_lt k q i n ltac:(lia) ltac:(lia) ltac:(lia)). lia.
  - intros i j I. unfold u'. destruct (Nat.eqb_spec i k) as [->|]; [destruct (Nat.leb_spec k j); [lia|]|]; cbn [andb]; now apply U0.
Qed.

(** Growth. *)
Definition c1 : R := (1 + g) * (1 + u64).
Lemma c1_ge : 1 <= c1. Proof. unfold c1. pose proof u64_bounds. fold g in Gr. nra. Qed.
Lemma geo c k : sum (fun m => c * (1 + c) ^ m) k = (1 + c) ^ k - 1.
Proof. induction k as [|k IH]; cbn [sum pow]; [ring|]. rewrite IH. ring. Qed.
Lemma growth k s l u : (k <= n)%nat -> 0 <= M -> good k s l u -> forall i j, (i < k)%nat -> (j < n)%nat -> Rabs (u i j) <= M * (c1 * (1 + c1) ^ i).
Proof.
  intros K M0 (S1 & S2 & D & L1 & U1 & L2 & U0) i. pose proof c1_ge as C. pose proof u64_bounds as U. fold g in Gr. induction i as [i IH] using lt_wf_ind. intros j I J.
  assert (P : 1 <= (1 + c1) ^ i) by (apply pow_R1_Rle; lra).
  destruct (Nat.lt_ge_cases j i) as [L|L]; [rewrite U0 by exact L; rewrite Rabs_R0; apply Rmult_le_pos; [exact M0|nra]|].
  pose proof (U1 i j I ltac:(lia)) as A. set (t := sum (fun m => Rabs (l i m * u m j)) i) in *. set (t0 := sum (fun m => l i m * u m j) i) in *.
  assert (T0 : Rabs t0 <= t) by apply sum_abs. pose proof (aM (s i) j (S1 i ltac:(lia)) J) as B.
  assert (T : t <= (1 + u64) * (M * ((1 + c1) ^ i - 1))).
  { rewrite <- geo, <- !sum_scal. unfold t. apply sum_le. intros m Hm'. rewrite Rabs_mult. apply Rmult_le_compat; try apply Rabs_pos; [apply L1; lia|apply IH; lia]. }
  assert (X : Rabs (u i j) <= (1 + g) * (M + t)).
  { replace (u i j) with ((u i j - (a (s i) j - t0)) + (a (s i) j - t0)) by ring. eapply Rle_trans; [apply Rabs_triang|]. pose proof (Rabs_triang (a (s i) j) (- t0)) as Y. rewrite Rabs_Ropp in Y. fold (a (s i) j - t0) in Y. nra. }
  eapply Rle_trans; [exact X|]. unfold c1 at 1. assert (M + t <= (1 + u64) * (M * (1 + c1) ^ i)) by nra. eapply Rle_trans; [apply Rmult_le_compat_l; [lra|exact H]|]. nra.
Qed.
(** The sizes of all the terms of an entry. *)
Definition w : R := (1 + u64) * ((1 + c1) ^ n).
Lemma w_ge : 1 <= w.
Proof. unfold w. pose proof c1_ge. pose proof u64_bounds. assert (1 <= (1 + c1) ^ n) by (apply pow_R1_Rle; lra). nra. Qed.
Lemma terms k s l u : (k <= n)%nat -> 0 <= M -> good k s l u -> forall i j t, (i < n)%nat -> (j < n)%nat -> (t <= k)%nat -> sum (fun m => Rabs (unit_lower l i m * u m j)) t <= w * M.
Proof.
  intros K M0 Gd i j t I J T. pose proof c1_ge as C. pose proof u64_bounds as U. pose proof (growth k s l u K M0 Gd) as Gw. destruct Gd as (S1 & S2 & D & L1 & U1 & L2 & U0).
  apply Rle_trans with (sum (fun m => (1 + u64) * (M * (c1 * (1 + c1) ^ m))) t).
  - apply sum_le. intros m Hm'. rewrite Rabs_mult. apply Rmult_le_compat; try apply Rabs_pos; [|apply Gw; lia]. unfold unit_lower.
    destruct (Nat.eqb_spec i m); [rewrite Rabs_R1; lra|]. destruct (Nat.ltb_spec m i); [apply L1; lia|rewrite Rabs_R0; lra].
  - rewrite (sum_scal (1 + u64)), (sum_scal M), geo. unfold w. assert ((1 + c1) ^ t <= (1 + c1) ^ n) by (apply Rle_pow; [lra|lia]). assert (M * ((1 + c1) ^ t - 1) <= M * (1 + c1) ^ n) by (apply Rmult_le_compat_l; lra). nra.
Qed.
(** Each entry of the matrix against the product, as far as it is known. *)
Lemma entry k s l u : (k <= n)%nat -> 0 <= M -> good k s l u -> forall i j, (i < n)%nat -> (j < n)%nat -> (i < k \/ j < k)%nat ->
  Rabs (sum (fun m => unit_lower l i m * u m j) k - a (s i) j) <= 2 * g * (w * M).
Proof.
  intros K M0 Gd i j I J IJ. pose proof u64_bounds as U. pose proof w_ge as W. fold g in Gr. pose proof (terms k s l u K M0 Gd i j) as T. destruct Gd as (S1 & S2 & D & L1 & U1 & L2 & U0).
  pose proof (aM (s i) j (S1 i I) J) as A. assert (MW : M <= w * M) by nra.
  destruct (Nat.lt_ge_cases j i) as [L|L].
  - assert (J' : (j < k)%nat) by lia.
    assert (E : sum (fun m => unit_lower l i m * u m j) k = sum (fun m => l i m * u m j) (S j)).
    { rewrite (sum_tail _ (S j) k); [|lia|]; [apply sum_ext|]; intros m H; [unfold unit_lower; destruct (Nat.eqb_spec i m); [lia|]; destruct (Nat.ltb_spec m i); [reflexivity|lia]|rewrite U0 by lia; ring]. }
    assert (E' : sum (fun m => Rabs (unit_lower l i m * u m j)) (S j) = sum (fun m => Rabs (l i m * u m j)) (S j)).
    { apply sum_ext. intros m H. unfold unit_lower. destruct (Nat.eqb_spec i m); [lia|]. destruct (Nat.ltb_spec m i); [reflexivity|lia]. }
    pose proof (T (S j) I J ltac:(lia)) as T1. rewrite E' in T1. rewrite E. cbn [sum] in T1 |- *. pose proof (L2 i j J' ltac:(lia)) as B. set (t0 := sum (fun m => l i m * u m j) j) in *. set (t := sum (fun m => Rabs (l i m * u m j)) j) in *.
    replace (t0 + l i j * u j j - a (s i) j) with (l i j * u j j - (a (s i) j - t0)) by ring. eapply Rle_trans; [exact B|]. assert (0 <= Rabs (l i j * u j j)) by apply Rabs_pos. nra.
  - destruct (Nat.lt_ge_cases i k) as [L'|L']; [|lia].
    assert (E : sum (fun m => unit_lower l i m * u m j) k = sum (fun m => l i m * u m j) i + u i j).
    { rewrite (sum_tail _ (S i) k); [|lia|].
      - cbn [sum]. unfold unit_lower at 2. rewrite Nat.eqb_refl, Rmult_1_l. f_equal. apply sum_ext. intros m H. unfold unit_lower. destruct (Nat.eqb_spec i m); [lia|]. destruct (Nat.ltb_spec m i); [reflexivity|lia].
      - intros m H. unfold unit_lower. destruct (Nat.eqb_spec i m); [lia|]. destruct (Nat.ltb_spec m i); [lia|ring]. }
    assert (E' : sum (fun m => Rabs (unit_lower l i m * u m j)) i = sum (fun m => Rabs (l i m * u m j)) i).
    { apply sum_ext. intros m H. unfold unit_lower. destruct (Nat.eqb_spec i m); [lia|]. destruct (Nat.ltb_spec m i); [reflexivity|lia]. }
    pose proof (T i I J ltac:(lia)) as T1. rewrite E' in T1. rewrite E. pose proof (U1 i j L' ltac:(lia)) as B. set (t0 := sum (fun m => l i m * u m j) i) in *. set (t := sum (fun m => Rabs (l i m * u m j)) i) in *.
    replace (t0 + u i j - a (s i) j) with (u i j - (a (s i) j - t0)) by ring. eapply Rle_trans; [exact B|]. nra.
Qed.
End Lu.
