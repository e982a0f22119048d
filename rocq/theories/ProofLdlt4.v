(** The triangular systems, and the backward error of the whole solver. *)
From Coq Require Import Reals Arith Lra Lia Psatz.
From Flocq Require Import Core.
From Verif Require Import Base ModelLdltFloat SpecFloatOps SpecLdltFloat ProofLdlt ProofLdlt2 ProofLdlt3 ProofStrapdownFloat.
Open Scope R_scope.

Lemma sum_first f n : sum f (S n) = f 0%nat + sum (fun i => f (S i)) n.
Proof. induction n as [|n IH]; [cbn; ring|]. cbn [sum] in *. rewrite IH. ring. Qed.
Lemma sum_rev f n : sum (fun i => f (n - 1 - i)%nat) n = sum f n.
Proof.
  induction n as [|n IH]; [reflexivity|]. rewrite sum_first. cbn [sum]. rewrite <- IH. replace (S n - 1 - 0)%nat with n by lia. rewrite Rplus_comm. f_equal. apply sum_ext. intros i I. f_equal. lia.
Qed.

(** A small residual is a small change of the coefficients. *)
Definition sgn (x : R) : R := if Rle_dec 0 x then 1 else -1.
Definition pert (c y : nat -> R) (b : R) (n j : nat) : R :=
  c j - (sum (fun i => c i * y i) n - b) / sum (fun i => Rabs (c i * y i)) n * (sgn (y j) * Rabs (c j)).
Lemma sgn_mul x : sgn x * x = Rabs x.
Proof. unfold sgn. destruct (Rle_dec 0 x); [rewrite Rabs_right; lra|rewrite Rabs_left; lra]. Qed.
Lemma sgn_abs x : Rabs (sgn x) = 1.
Proof. unfold sgn. destruct (Rle_dec 0 x); [apply Rabs_R1|rewrite Rabs_left; lra]. Qed.
Lemma pert_ok c y b n e : 0 <= e -> Rabs (sum (fun i => c i * y i) n - b) <= e * sum (fun i => Rabs (c i * y i)) n ->
  (forall j, Rabs (pert c y b n j - c j) <= e * Rabs (c j)) /\ sum (fun j => pert c y b n j * y j) n = b.
Proof.
  intros E H. unfold pert. set (s := sum (fun i => Rabs (c i * y i)) n) in *. set (v := sum (fun i => c i * y i) n) in *.
  assert (S0 : 0 <= s) by (apply sum_pos; intros; apply Rabs_pos). destruct (Req_dec s 0) as [Z|Z].
  - rewrite Z in *. rewrite Rmult_0_r in H. assert (V : v - b = 0) by (destruct (Req_dec (v - b) 0) as [|X]; [assumption|apply Rabs_pos_lt in X; lra]).
    rewrite V. unfold Rdiv. rewrite !Rmult_0_l. split.
    + intros j. rewrite !Rmult_0_l. replace (c j - 0 - c j) with 0 by ring. rewrite Rabs_R0. apply Rmult_le_pos; [exact E|apply Rabs_pos].
    + rewrite (sum_ext _ (fun i => c i * y i)) by (intros; ring). fold v. lra.
  - assert (0 < s) by lra. set (q := (v - b) / s). assert (Q : Rabs q <= e).
    { unfold q, Rdiv. rewrite Rabs_mult, (Rabs_right (/ s)) by (apply Rle_ge, Rlt_le, Rinv_0_lt_compat; lra). apply Rmult_le_reg_r with s; [lra|]. rewrite Rmult_assoc, Rinv_l by lra. lra. }
    split.
    + intros j. replace (c j - q * (sgn (y j) * Rabs (c j)) - c j) with (- (q * (sgn (y j) * Rabs (c j)))) by ring. rewrite Rabs_Ropp, !Rabs_mult, sgn_abs, Rabs_Rabsolu, Rmult_1_l. apply Rmult_le_compat_r; [apply Rabs_pos|exact Q].
    + rewrite (sum_ext _ (fun j => c j * y j - q * Rabs (c j * y j))); [|intros j J; rewrite Rabs_mult, <- (sgn_mul (y j)); ring].
      rewrite sum_minus, sum_scal. fold s v. unfold q. field. lra.
Qed.

Section Solve.
Variables (r : R -> R) (msub : R -> nat -> (nat -> R) -> (nat -> R) -> R) (n : nat).
Hypothesis Hr : rel_ok r. Hypothesis Hm : msub_ok msub. Hypothesis Hn : INR n <= 1000000.
Let g := 101 / 100 * ((INR n + 2) * u64).
Hypothesis small : g <= 1 / 1000.

Lemma forward_old l b k i : (i < k)%nat -> forward msub l b k i = forward msub l b (S i) i.
Proof.
  induction k as [|k IH]; intros I; [lia|]. destruct (Nat.eq_dec i k) as [->|]; [reflexivity|]. cbn [forward]. destruct (Nat.eqb_spec i k); [lia|]. rewrite IH by lia. reflexivity.
Qed.
Lemma forward_res l b i : (i < n)%nat -> let y := forward msub l b n in
  Rabs (y i - (b i - sum (fun j => l i j * y j) i)) <= 21 / 10 * g * (sum (fun j => Rabs (l i j * y j)) i + Rabs (y i)).
Proof.
  intros I y. assert (E : y i = msub (b i) i (l i) (forward msub l b i)).
  { unfold y. rewrite forward_old by exact I. cbn [forward]. now rewrite Nat.eqb_refl. }
  assert (F : forall j, (j < i)%nat -> forward msub l b i j = y j) by (intros j J; unfold y; rewrite (forward_old l b i j), (forward_old l b n j) by lia; reflexivity).
  pose proof (msub_g msub n Hm Hn (b i) i (l i) (forward msub l b i) ltac:(lia)) as A. rewrite <- E in A. fold g in A.
  rewrite (sum_ext (fun j => l i j * forward msub l b i j) (fun j => l i j * y j)) in A by (intros j J; now rewrite F).
  rewrite (sum_ext (fun j => Rabs (l i j * forward msub l b i j)) (fun j => Rabs (l i j * y j))) in A by (intros j J; now rewrite F).
  set (s := sum (fun j => l i j * y j) i) in *. set (t := sum (fun j => Rabs (l i j * y j)) i) in *.
  assert (T : Rabs s <= t) by apply sum_abs. set (e := Rabs (y i - (b i - s))) in *.
  assert (B : Rabs (b i) <= Rabs (y i) + t + e).
  { replace (b i) with (y i + (s + - (y i - (b i - s)))) by ring. eapply Rle_trans; [apply Rabs_triang|]. pose proof (Rabs_triang s (- (y i - (b i - s)))) as X. rewrite Rabs_Ropp in X. fold e in X. lra. }
  pose proof (Rabs_pos (y i)). assert (0 <= t) by (pose proof (Rabs_pos s); lra). assert (0 <= e) by apply Rabs_pos.
  assert (G : 0 <= g) by (unfold g; pose proof u64_bounds; pose proof (pos_INR n); nra). set (Y := Rabs (y i)) in *.
  assert (g * (Rabs (b i) + t) <= g * (Y + 2 * t + e)) by (apply Rmult_le_compat_l; lra). assert (g * e <= 1 / 1000 * e) by (apply Rmult_le_compat_r; lra).
  assert (0 <= g * Y) by now apply Rmult_le_pos. assert (0 <= g * t) by now apply Rmult_le_pos. nra.
Qed.
(** The solution of the triangular system solves one with slightly other coefficients. *)
Lemma forward_ok l b : (forall i, l i i = 1) -> (forall i j, (i < j)%nat -> l i j = 0) -> exists l', let y := forward msub l b n in
  (forall i j, (i < n)%nat -> Rabs (l' i j - l i j) <= 21 / 10 * g * Rabs (l i j)) /\ forall i, (i < n)%nat -> sum (fun j => l' i j * y j) n = b i.
Proof.
  intros L1 L0. exists (fun i => pert (l i) (forward msub l b n) (b i) n). intros y. unfold y.
  assert (G : 0 <= 21 / 10 * g) by (unfold g; pose proof u64_bounds; pose proof (pos_INR n); nra).
  assert (P : forall i, (i < n)%nat -> Rabs (sum (fun j => l i j * y j) n - b i) <= 21 / 10 * g * sum (fun j => Rabs (l i j * y j)) n).
  { intros i I. pose proof (forward_res l b i I) as A. cbv zeta in A. fold y in A.
    rewrite (sum_tail (fun j => l i j * y j) (S i) n), (sum_tail (fun j => Rabs (l i j * y j)) (S i) n); try lia; try (intros j J; rewrite L0 by lia; rewrite Rmult_0_l; auto using Rabs_R0).
    cbn [sum]. rewrite L1, Rmult_1_l. replace (sum (fun j => l i j * y j) i + y i - b i) with (y i - (b i - sum (fun j => l i j * y j) i)) by ring. exact A. }
  split.
  - intros i j I. now apply (pert_ok (l i) y (b i) n (21 / 10 * g) G (P i I)).
  - intros i I. now apply (pert_ok (l i) y (b i) n (21 / 10 * g) G (P i I)).
Qed.
Lemma backward_ok l z : (forall i, l i i = 1) -> (forall i j, (i < j)%nat -> l i j = 0) -> exists l', let x := backward msub n l z in
  (forall i j, (i < n)%nat -> (j < n)%nat -> Rabs (l' i j - l j i) <= 21 / 10 * g * Rabs (l j i)) /\ forall i, (i < n)%nat -> sum (fun j => l' i j * x j) n = z i.
Proof.
  intros L1 L0. set (rv := fun i => (n - 1 - i)%nat).
  (* outside the matrix the reversed triangle is taken to be the identity *)
  set (m := fun i j => if Nat.eqb i j then 1 else if Nat.ltb i j then 0 else l (rv j) (rv i)).
  assert (M : forall i j, (i < n)%nat -> (j < n)%nat -> m i j = l (rv j) (rv i)).
  { intros i j I J. unfold m. destruct (Nat.eqb_spec i j) as [->|]; [now rewrite L1|]. destruct (Nat.ltb_spec i j); [|reflexivity]. rewrite L0; [reflexivity|unfold rv; lia]. }
  pose proof (forward_res (fun i j => l (rv j) (rv i)) (fun i => z (rv i))) as A. set (y := forward msub (fun i j => l (rv j) (rv i)) (fun i => z (rv i)) n) in *. cbv zeta in A.
  assert (G : 0 <= 21 / 10 * g) by (unfold g; pose proof u64_bounds; pose proof (pos_INR n); nra).
  assert (P : forall i, (i < n)%nat -> Rabs (sum (fun j => m i j * y j) n - z (rv i)) <= 21 / 10 * g * sum (fun j => Rabs (m i j * y j)) n).
  { intros i I. specialize (A i I).
    assert (Z : forall j, (S i <= j < n)%nat -> m i j = 0) by (intros j J; unfold m; destruct (Nat.eqb_spec i j); [lia|]; destruct (Nat.ltb_spec i j); [reflexivity|lia]).
    rewrite (sum_tail (fun j => m i j * y j) (S i) n), (sum_tail (fun j => Rabs (m i j * y j)) (S i) n); try lia; try (intros j J; rewrite Z by lia; rewrite Rmult_0_l; auto using Rabs_R0).
    cbn [sum]. replace (m i i) with 1 by (unfold m; now rewrite Nat.eqb_refl). rewrite Rmult_1_l.
    rewrite (sum_ext (fun j => m i j * y j) (fun j => l (rv j) (rv i) * y j)) by (intros j J; rewrite M by lia; reflexivity).
    rewrite (sum_ext (fun j => Rabs (m i j * y j)) (fun j => Rabs (l (rv j) (rv i) * y j))) by (intros j J; rewrite M by lia; reflexivity).
    match goal with |- Rabs (?s + ?v - ?w) <= _ => replace (s + v - w) with (v - (w - s)) by ring end. exact A. }
  exists (fun i j => pert (m (rv i)) y (z (rv (rv i))) n (rv j)). intros x. assert (RV : forall i, (i < n)%nat -> (rv i < n)%nat /\ rv (rv i) = i) by (intros i I; unfold rv; split; lia).
  split.
  - intros i j I J. destruct (RV i I) as [I1 I2], (RV j J) as [J1 J2].
    destruct (pert_ok (m (rv i)) y (z (rv (rv i))) n _ G (P (rv i) I1)) as [Q _]. specialize (Q (rv j)). rewrite (M (rv i) (rv j)), I2, J2 in Q by assumption. rewrite I2. exact Q.
  - intros i I. destruct (RV i I) as [I1 I2]. destruct (pert_ok (m (rv i)) y (z (rv (rv i))) n _ G (P (rv i) I1)) as [_ Q].
    rewrite <- sum_rev in Q. refine (eq_trans _ (eq_trans Q (f_equal z I2))). apply sum_ext. intros j J. reflexivity.
Qed.
End Solve.

Section Whole.
Variables (r : R -> R) (msub : R -> nat -> (nat -> R) -> (nat -> R) -> R) (a : nat -> nat -> R) (n : nat) (lam : R).
Hypothesis Hr : rel_ok r. Hypothesis Hm : msub_ok msub. Hypothesis Hn : INR n <= 1000000.
Let g := 101 / 100 * ((INR n + 2) * u64).
Hypothesis asym : forall i j, a i j = a j i.
Hypothesis apos : forall i, (i < n)%nat -> 0 < a i i.
Hypothesis asq : forall i j, (i < n)%nat -> (j < n)%nat -> Rabs (a i j) <= sqrt (a i i) * sqrt (a j j).
Hypothesis pd : forall k x, (k <= n)%nat -> lam * sum (fun i => a i i * (x i * x i)) k <= sum (fun i => sum (fun j => a i j * (x i * x j)) k) k.
Hypothesis Lam : 10 * (INR n * g) <= lam <= 1.
Hypothesis Lam0 : 0 < lam.

Lemma small_ng : INR n * g <= 1 / 1000.
Proof. unfold g. pose proof u64_bounds as U. pose proof (pos_INR n) as N. set (m := INR n) in *.
  assert (m * (m + 2) <= 1000000 * 1000002) by nra. assert (m * (m + 2) * u64 <= 1000000 * 1000002 * u64) by (apply Rmult_le_compat_r; lra). rewrite u64_val in *. lra. Qed.

Lemma three l d u l' d' u' h e : 0 <= h <= 1 / 1000 -> 0 <= e <= h -> Rabs (l' - l) <= 21 / 10 * h * Rabs l -> Rabs (u' - u) <= 21 / 10 * h * Rabs u -> Rabs (d' - d) <= 51 / 100 * e * Rabs d ->
  Rabs (l' * d' * u' - l * d * u) <= 5 * h * Rabs (l * d * u).
Proof.
  intros H E A B C. rewrite !Rabs_mult. replace (l' * d' * u' - l * d * u) with ((l' - l) * (d' * u') + l * ((d' - d) * u') + l * d * (u' - u)) by ring.
  assert (B' : Rabs u' <= 1003 / 1000 * Rabs u) by (replace u' with ((u' - u) + u) by ring; eapply Rle_trans; [apply Rabs_triang|]; pose proof (Rabs_pos u); nra).
  assert (C' : Rabs d' <= 1001 / 1000 * Rabs d) by (replace d' with ((d' - d) + d) by ring; eapply Rle_trans; [apply Rabs_triang|]; pose proof (Rabs_pos d); nra).
  eapply Rle_trans; [apply Rabs_triang|]. eapply Rle_trans; [apply Rplus_le_compat_r, Rabs_triang|]. rewrite !Rabs_mult.
  pose proof (Rabs_pos l). pose proof (Rabs_pos d). pose proof (Rabs_pos u). pose proof (Rabs_pos u'). pose proof (Rabs_pos d'). pose proof (Rabs_pos (l' - l)). pose proof (Rabs_pos (d' - d)). pose proof (Rabs_pos (u' - u)).
  set (L := Rabs l) in *. set (D := Rabs d) in *. set (V := Rabs u) in *.
  assert (X1 : Rabs (l' - l) * (Rabs d' * Rabs u') <= 21 / 10 * h * L * ((1001 / 1000 * D) * (1003 / 1000 * V))) by (apply Rmult_le_compat; try assumption; [now apply Rmult_le_pos|now apply Rmult_le_compat]).
  assert (X2 : L * (Rabs (d' - d) * Rabs u') <= L * ((51 / 100 * e * D) * (1003 / 1000 * V))) by (apply Rmult_le_compat_l; [assumption|now apply Rmult_le_compat]).
  assert (X3 : L * D * Rabs (u' - u) <= L * D * (21 / 10 * h * V)) by (apply Rmult_le_compat_l; [now apply Rmult_le_pos|assumption]).
  assert (P : 0 <= L * D * V) by (repeat apply Rmult_le_pos; assumption). set (p := L * D * V) in *.
  assert (e * p <= h * p) by (apply Rmult_le_compat_r; lra). assert (0 <= h * p) by (apply Rmult_le_pos; lra).
  replace (21 / 10 * h * L * ((1001 / 1000 * D) * (1003 / 1000 * V))) with (21 / 10 * (1001 / 1000) * (1003 / 1000) * (h * p)) in X1 by (unfold p; ring).
  replace (L * ((51 / 100 * e * D) * (1003 / 1000 * V))) with (51 / 100 * (1003 / 1000) * (e * p)) in X2 by (unfold p; ring).
  replace (L * D * (21 / 10 * h * V)) with (21 / 10 * (h * p)) in X3 by (unfold p; ring). lra.
Qed.

Lemma ldlt_backward b : exists x E, ldlt_nat r msub n a b = Ret x /\ (forall i j, (i < n)%nat -> (j < n)%nat -> Rabs (E i j) <= 9 * ((INR n + 2) * u64) * (sqrt (a i i) * sqrt (a j j))) /\
  forall i, (i < n)%nat -> sum (fun j => (a i j + E i j) * x j) n = b i.
Proof.
  pose proof (g_range n Hn) as G. fold g in G. pose proof u64_bounds as U. pose proof (pos_INR n) as N0.
  destruct (factor_good r msub a n lam Hr Hm Hn asym apos asq pd Lam Lam0 small_ng n (le_n n)) as (l & d & E & L1 & L0 & D & B). fold g in B.
  unfold ldlt_nat. rewrite E. cbn [bind]. set (y := forward msub l b n). set (z := fun i => r (y i / d i)). set (x := backward msub n l z).
  destruct (forward_ok msub n Hm Hn (proj2 G) l b L1 L0) as (l' & F1 & F2). fold g in F1. fold y in F2.
  destruct (backward_ok msub n Hm Hn (proj2 G) l z L1 L0) as (u' & V1 & V2). fold g in V1. fold x in V2.
  set (d' := fun i => if Req_EM_T (z i) 0 then d i else y i / z i).
  assert (D1 : forall i, (i < n)%nat -> d' i * z i = y i /\ Rabs (d' i - d i) <= 51 / 100 * g * Rabs (d i)).
  { intros i I. specialize (D i I). destruct (ProofLdlt3.quot r Hr (y i) (d i) ltac:(lra)) as [Q1 Q2]. fold (z i) in Q1, Q2. unfold d'. destruct (Req_EM_T (z i) 0) as [Z|Z].
    - rewrite Z in *. rewrite Rmult_0_l, Rabs_R0, Rmult_0_r in Q2. assert (0 = y i) by (destruct (Req_dec (0 - y i) 0); [lra|]; pose proof (Rabs_pos_lt _ H); lra). split; [lra|].
      replace (d i - d i) with 0 by ring. rewrite Rabs_R0. apply Rmult_le_pos; [lra|apply Rabs_pos].
    - split; [field; exact Z|]. replace (y i / z i - d i) with (- ((z i * d i - y i) / z i)) by (field; exact Z). unfold Rdiv. rewrite Rabs_Ropp, Rabs_mult. rewrite Rabs_mult in Q2.
      assert (0 < Rabs (z i)) by now apply Rabs_pos_lt. rewrite Rabs_inv. apply Rmult_le_reg_r with (Rabs (z i)); [assumption|]. rewrite Rmult_assoc, Rinv_l by lra. rewrite Rmult_1_r.
      eapply Rle_trans; [exact Q2|]. pose proof (Rabs_pos (d i)). assert (0 <= Rabs (z i) * Rabs (d i)) by (apply Rmult_le_pos; lra). nra. }
  set (T := fun i j m => l i m * d m * l j m). set (A' := fun i j => sum (fun m => l' i m * d' m * u' m j) n).
  assert (TP : forall i m, (m < n)%nat -> 0 <= T i i m) by (intros i m M; unfold T; specialize (D m M); replace (l i m * d m * l i m) with (d m * (l i m * l i m)) by ring; apply Rmult_le_pos; [lra|apply Rle_0_sqr]).
  assert (TS : forall i j, (j <= i < n)%nat -> sum (T i j) n = sum (T i j) (S j)).
  { intros i j J. apply sum_tail; [lia|]. intros m M. unfold T. rewrite (L0 j m) by lia. ring. }
  assert (TD : forall j, (j < n)%nat -> sum (T j j) n <= 101 / 100 * a j j).
  { intros j J. pose proof (B j j J ltac:(lia)) as Q. change (fun m => l j m * d m * l j m) with (T j j) in Q.
    rewrite (sum_ext (fun m => Rabs (l j m * d m * l j m)) (T j j)) in Q by (intros m M; apply Rabs_right, Rle_ge; apply TP; lia). rewrite TS by lia.
    pose proof (apos j J) as AP. rewrite (Rabs_right (a j j)) in Q by lra. apply Rabs_le_inv in Q. set (s := sum (T j j) (S j)) in *.
    assert (0 <= s) by (apply sum_pos; intros; apply TP; lia). assert (g * s <= 1 / 1000 * s) by (apply Rmult_le_compat_r; lra). assert (g * a j j <= 1 / 1000 * a j j) by (apply Rmult_le_compat_r; lra). lra. }
  assert (TA : forall i j, (i < n)%nat -> (j < n)%nat -> sum (fun m => Rabs (T i j m)) n <= 101 / 100 * (sqrt (a i i) * sqrt (a j j))).
  { intros i j I J. rewrite (sum_ext _ (fun m => sqrt (T i i m) * sqrt (T j j m))).
    - eapply Rle_trans; [apply sum_cs_sqrt; intros; apply sqrt_pos|].
      rewrite (sum_ext (fun m => sqrt (T i i m) * sqrt (T i i m)) (T i i)), (sum_ext (fun m => sqrt (T j j m) * sqrt (T j j m)) (T j j)) by (intros; apply sqrt_sqrt, TP; assumption).
      replace (101 / 100 * (sqrt (a i i) * sqrt (a j j))) with (sqrt (101 / 100) * sqrt (a i i) * (sqrt (101 / 100) * sqrt (a j j))).
      + apply Rmult_le_compat; try apply sqrt_pos; (rewrite <- sqrt_mult by (try lra; apply Rlt_le, apos; assumption)); apply sqrt_le_1_alt, TD; assumption.
      + transitivity (sqrt (101 / 100) * sqrt (101 / 100) * (sqrt (a i i) * sqrt (a j j))); [ring|]. now rewrite sqrt_sqrt by lra.
    - intros m M. rewrite <- sqrt_mult by now apply TP. unfold T. specialize (D m M).
      replace (l i m * d m * l i m * (l j m * d m * l j m)) with ((l i m * d m * l j m) * (l i m * d m * l j m)) by ring. symmetry. apply sqrt_Rsqr_abs. }
  assert (AE1 : forall i j, (j <= i < n)%nat -> Rabs (a i j - sum (T i j) n) <= 31 / 10 * g * (sqrt (a i i) * sqrt (a j j))).
  { intros i j J. rewrite TS by exact J. pose proof (B i j ltac:(lia) J) as Q. change (fun m => l i m * d m * l j m) with (T i j) in Q.
    eapply Rle_trans; [exact Q|]. pose proof (TA i j ltac:(lia) ltac:(lia)) as Q2. pose proof (asq i j ltac:(lia) ltac:(lia)) as Q3.
    pose proof (sum_mono (fun m => Rabs (T i j m)) (S j) n ltac:(lia) ltac:(intros; apply Rabs_pos)) as Q4. set (w := sqrt (a i i) * sqrt (a j j)) in *. unfold T at 1 in Q4.
    assert (0 <= w) by (apply Rmult_le_pos; apply sqrt_pos).
    assert (g * Rabs (a i j) <= g * w) by (apply Rmult_le_compat_l; lra). assert (g * sum (fun m => Rabs (l i m * d m * l j m)) (S j) <= g * (101 / 100 * w)) by (apply Rmult_le_compat_l; lra). assert (0 <= g * w) by (apply Rmult_le_pos; lra). lra. }
  assert (AE : forall i j, (i < n)%nat -> (j < n)%nat -> Rabs (a i j - sum (T i j) n) <= 31 / 10 * g * (sqrt (a i i) * sqrt (a j j))).
  { intros i j I J. destruct (le_lt_dec j i); [apply AE1; lia|]. rewrite asym, (sum_ext (T i j) (T j i)) by (intros; unfold T; ring). rewrite (Rmult_comm (sqrt (a i i))). apply AE1. lia. }
  assert (PE : forall i j, (i < n)%nat -> (j < n)%nat -> Rabs (A' i j - sum (T i j) n) <= 101 / 20 * g * (sqrt (a i i) * sqrt (a j j))).
  { intros i j I J. unfold A'. rewrite <- sum_minus. eapply Rle_trans; [apply sum_abs|].
    apply Rle_trans with (sum (fun m => 5 * g * Rabs (T i j m)) n).
    - apply sum_le. intros m M. unfold T. apply (three (l i m) (d m) (l j m) (l' i m) (d' m) (u' m j) g g); try lra; [apply F1; exact I|apply V1; assumption|apply D1; exact M].
    - rewrite sum_scal. replace (101 / 20 * g * (sqrt (a i i) * sqrt (a j j))) with (5 * g * (101 / 100 * (sqrt (a i i) * sqrt (a j j)))) by lra. apply Rmult_le_compat_l; [lra|]. now apply TA. }
  exists x, (fun i j => A' i j - a i j). split; [reflexivity|]. split.
  - intros i j I J. replace (A' i j - a i j) with ((A' i j - sum (T i j) n) + - (a i j - sum (T i j) n)) by ring. eapply Rle_trans; [apply Rabs_triang|]. rewrite Rabs_Ropp.
    pose proof (AE i j I J). pose proof (PE i j I J). set (w := sqrt (a i i) * sqrt (a j j)) in *. assert (0 <= w) by (apply Rmult_le_pos; apply sqrt_pos).
    assert (0 <= (INR n + 2) * u64 * w) by (apply Rmult_le_pos; [apply Rmult_le_pos; lra|assumption]). replace (g * w) with (101 / 100 * ((INR n + 2) * u64 * w)) in * by (unfold g; ring). unfold g in *. lra.
  - intros i I. rewrite (sum_ext _ (fun j => sum (fun m => l' i m * d' m * u' m j * x j) n)).
    + rewrite sum_swap. rewrite (sum_ext _ (fun m => l' i m * y m)); [now apply F2|]. intros m M. rewrite <- (proj1 (D1 m M)), <- (V2 m M).
      rewrite <- Rmult_assoc, <- sum_scal. apply sum_ext. intros; ring.
    + intros j J. replace (a i j + (A' i j - a i j)) with (A' i j) by ring. unfold A'. now rewrite <- sum_scar.
Qed.
End Whole.
