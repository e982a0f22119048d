(** Elimination runs to the end, and the residual of the solutions. *)
From Coq Require Import Reals Arith Lra Lia Psatz.
From Flocq Require Import Core.
From Verif Require Import Base ModelLdltFloat ModelLuFloat SpecFloatOps SpecLdltFloat ProofLdlt ProofLdlt3 ProofLdlt4 ProofLdlt5 ProofLdlt8 ProofStrapdownFloat ProofLu.
Open Scope R_scope.

Lemma upper_exists (u : nat -> nat -> R) k : (forall j, (j < k)%nat -> u j j <> 0) -> (forall i j, (j < i)%nat -> u i j = 0) ->
  forall v : nat -> R, exists x : nat -> R, forall i, (i < k)%nat -> sum (fun j => u i j * x j) k = v i.
Proof.
  intros D U0. induction k as [|k IH]; intros v; [exists (fun _ => 0); intros; lia|].
  destruct (IH ltac:(intros; apply D; lia) (fun i => v i - u i k * (v k / u k k))) as [x X]. exists (fun j => if Nat.eqb j k then v k / u k k else x j). intros i I. cbn [sum]. rewrite Nat.eqb_refl.
  rewrite (sum_ext _ (fun j => u i j * x j)) by (intros j J; destruct (Nat.eqb_spec j k); [lia|reflexivity]). destruct (Nat.eq_dec i k) as [->|N].
  - rewrite (sum_ext _ (fun _ => 0)) by (intros j J; rewrite U0 by lia; ring). rewrite sum_zero. field. apply D. lia.
  - rewrite X by lia. ring.
Qed.
Lemma sum_outer_swap (l u : nat -> nat -> R) i (x : nat -> R) k n : sum (fun j => sum (fun m => l i m * u m j) k * x j) n = sum (fun m => l i m * sum (fun j => u m j * x j) n) k.
Proof.
  rewrite (sum_ext _ (fun j => sum (fun m => l i m * u m j * x j) k)) by (intros; now rewrite sum_scar). rewrite sum_swap. apply sum_ext. intros m Hm. rewrite <- sum_scal. apply sum_ext. intros. ring.
Qed.
Lemma sum_bound f x e k : 0 <= e -> (forall j, (j < k)%nat -> Rabs (f j) <= e) -> Rabs (sum (fun j => f j * x j) k) <= e * sum (fun j => Rabs (x j)) k.
Proof.
  intros E F. eapply Rle_trans; [apply sum_abs|]. rewrite <- sum_scal. apply sum_le. intros j J. rewrite Rabs_mult. apply Rmult_le_compat_r; [apply Rabs_pos|now apply F].
Qed.
Lemma sum_const c k : sum (fun _ => c) k = INR k * c.
Proof. induction k as [|k IH]; [cbn; ring|]. rewrite S_INR. cbn [sum]. rewrite IH. ring. Qed.
(** Small rows make a small vector. *)
Lemma rows_small (f : nat -> R) x n e : 0 <= e -> (forall i, (i < n)%nat -> Rabs (f i) <= e * sum (fun j => Rabs (x j)) n) ->
  sum (fun i => f i * f i) n <= (INR n * e) * (INR n * e) * sum (fun j => x j * x j) n.
Proof.
  intros E F. set (X := sum (fun j => Rabs (x j)) n) in *. assert (X0 : 0 <= X) by (apply sum_pos; intros; apply Rabs_pos).
  assert (XX : X * X <= INR n * sum (fun j => x j * x j) n).
  { unfold X. eapply Rle_trans; [apply sum_sq|]. apply Rmult_le_compat_l; [apply pos_INR|]. apply sum_le. intros j J. rewrite <- Rabs_mult. rewrite Rabs_right; [lra|]. apply Rle_ge, Rle_0_sqr. }
  apply Rle_trans with (sum (fun _ => (e * X) * (e * X)) n).
  - apply sum_le. intros i I. specialize (F i I). pose proof (Rabs_pos (f i)). rewrite <- (Rabs_right (f i * f i)) by (apply Rle_ge, Rle_0_sqr). rewrite Rabs_mult. apply Rmult_le_compat; assumption.
  - rewrite sum_const. pose proof (pos_INR n) as N. replace (INR n * (e * X * (e * X))) with (INR n * e * e * (X * X)) by ring.
    replace (INR n * e * (INR n * e) * sum (fun j => x j * x j) n) with (INR n * e * e * (INR n * sum (fun j => x j * x j) n)) by ring. apply Rmult_le_compat_l; [|exact XX]. apply Rmult_le_pos; [apply Rmult_le_pos|]; assumption.
Qed.

Section Lu2.
Variables (r : R -> R) (msub : R -> nat -> (nat -> R) -> (nat -> R) -> R) (a : nat -> nat -> R) (n : nat) (M sg : R).
Hypothesis Hr : rel_ok r. Hypothesis Hm : msub_ok msub. Hypothesis Hn : INR n <= 1000000.
Let g := 101 / 100 * ((INR n + 2) * u64).
Hypothesis aM : forall i j, (i < n)%nat -> (j < n)%nat -> Rabs (a i j) <= M.
Hypothesis M0 : 0 <= M.
Hypothesis margin : forall x, sg * sg * sum (fun j => x j * x j) n <= sum (fun i => sum (fun j => a i j * x j) n * sum (fun j => a i j * x j) n) n.
Let w := w n.
Hypothesis far : INR n * (2 * g * (w * M)) < sg.
Let Gr := g_range n Hn.
Let good := good a n.

Lemma MW' : M <= w * M.
Proof. pose proof (w_ge n Hn) as W. fold w in W. clear - W M0. nra. Qed.
Lemma E0' : 0 <= 2 * g * (w * M).
Proof. pose proof MW'. pose proof u64_bounds. fold g in Gr. apply Rmult_le_pos; lra. Qed.
Lemma gg x y : x <= M -> y <= w * M -> g * (x + y) <= 2 * g * (w * M).
Proof. intros X Y. pose proof MW' as A. pose proof u64_bounds as U. fold g in Gr. replace (2 * g * (w * M)) with (g * (w * M + w * M)) by ring. apply Rmult_le_compat_l; lra. Qed.
Lemma pivot k s l u : (k < n)%nat -> good k s l u -> let v i := msub (a (s i) k) k (l i) (fun m => u m k) in exists i, (k <= i < n)%nat /\ v i <> 0.
Proof.
  intros K Gd v. destruct (Classical_Prop.classic (exists i, (k <= i < n)%nat /\ v i <> 0)) as [|NE]; [assumption|exfalso].
  assert (V : forall i, (k <= i < n)%nat -> v i = 0) by (intros i I; destruct (Req_dec (v i) 0); [assumption|]; exfalso; apply NE; now exists i). clear NE.
  pose proof (entry a n M Hn aM k s l u ltac:(lia) M0 Gd) as En. pose proof (terms a n M Hn aM k s l u ltac:(lia) M0 Gd) as Te. fold g w in En, Te. fold g in Gr. pose proof (w_ge n Hn) as W. fold w in W.
  destruct Gd as (S1 & S2 & D & L1 & U1 & L2 & U0). destruct (upper_exists u k D U0 (fun i => - u i k)) as [x0 X0].
  set (x := fun j => if Nat.ltb j k then x0 j else if Nat.eqb j k then 1 else 0).
  assert (xlo : forall j, (j < k)%nat -> x j = x0 j) by (intros j J; unfold x; destruct (Nat.ltb_spec j k); [reflexivity|lia]).
  assert (xk : x k = 1) by (unfold x; rewrite Nat.ltb_irrefl, Nat.eqb_refl; reflexivity).
  assert (xhi : forall j, (k < j)%nat -> x j = 0) by (intros j J; unfold x; destruct (Nat.ltb_spec j k); [lia|]; destruct (Nat.eqb_spec j k); [lia|reflexivity]).
  assert (UX : forall m, (m < k)%nat -> sum (fun j => u m j * x j) (S k) = 0).
  { intros m H. cbn [sum]. rewrite xk, (sum_ext _ (fun j => u m j * x0 j)) by (intros; now rewrite xlo). rewrite X0 by exact H. ring. }
  pose proof MW' as MW. pose proof E0' as E0.
  assert (Ent : forall i j, (i < n)%nat -> (j <= k)%nat -> Rabs (a (s i) j - sum (fun m => unit_lower l i m * u m j) k) <= 2 * g * (w * M)).
  { intros i j I J. rewrite <- Rabs_Ropp. replace (- (a (s i) j - sum (fun m => unit_lower l i m * u m j) k)) with (sum (fun m => unit_lower l i m * u m j) k - a (s i) j) by ring.
    destruct (Nat.lt_ge_cases i k); [apply En; lia|]. destruct (Nat.lt_ge_cases j k); [apply En; lia|]. replace j with k by lia.
    assert (EQ : forall m, (m < k)%nat -> unit_lower l i m = l i m) by (intros m Hm'; unfold unit_lower; destruct (Nat.eqb_spec i m); [lia|]; destruct (Nat.ltb_spec m i); [reflexivity|lia]).
    pose proof (Te i k k I K ltac:(lia)) as T1. rewrite (sum_ext _ (fun m => Rabs (l i m * u m k))) in T1 by (intros m Hm'; now rewrite EQ). rewrite (sum_ext _ (fun m => l i m * u m k)) by (intros m Hm'; now rewrite EQ).
    pose proof (msub_g msub n Hm Hn (a (s i) k) k (l i) (fun m => u m k) ltac:(lia)) as B. fold (v i) in B. fold g in B. rewrite V in B by lia. pose proof (aM (s i) k (S1 i I) K) as A.
    set (t0 := sum (fun m => l i m * u m k) k) in *. replace (t0 - a (s i) k) with (0 - (a (s i) k - t0)) by ring. eapply Rle_trans; [exact B|]. now apply gg. }
  assert (Row : forall i, (i < n)%nat -> Rabs (sum (fun j => a (s i) j * x j) n) <= 2 * g * (w * M) * sum (fun j => Rabs (x j)) n).
  { intros i I. rewrite (sum_tail (fun j => a (s i) j * x j) (S k) n) by (try lia; intros j J; rewrite xhi by lia; ring).
    rewrite (sum_tail (fun j => Rabs (x j)) (S k) n) by (try lia; intros j J; rewrite xhi by lia; apply Rabs_R0).
    replace (sum (fun j => a (s i) j * x j) (S k)) with (sum (fun j => (a (s i) j - sum (fun m => unit_lower l i m * u m j) k) * x j) (S k)).
    - apply sum_bound; [exact E0|]. intros j J. apply Ent; lia.
    - rewrite (sum_ext _ (fun j => a (s i) j * x j - sum (fun m => unit_lower l i m * u m j) k * x j)) by (intros; ring). rewrite sum_minus, sum_outer_swap.
      rewrite (sum_ext (fun m => unit_lower l i m * sum (fun j => u m j * x j) (S k)) (fun _ => 0)) by (intros m Hm'; rewrite UX by exact Hm'; ring). rewrite sum_zero. ring. }
  pose proof (rows_small _ x n _ E0 Row) as Sm. cbv beta in Sm. rewrite (S2 (fun i => sum (fun j => a i j * x j) n * sum (fun j => a i j * x j) n)) in Sm. pose proof (margin x) as Mx.
  assert (Q : 1 <= sum (fun j => x j * x j) n). { eapply Rle_trans; [|apply (sum_in (fun j => x j * x j) k n K)]; [rewrite xk; lra|intros; apply Rle_0_sqr]. }
  set (q := sum (fun j => x j * x j) n) in *. set (e := INR n * (2 * g * (w * M))) in *. assert (0 <= e) by (apply Rmult_le_pos; [apply pos_INR|exact E0]).
  assert (e * e < sg * sg) by nra. nra.
Qed.
Lemma lu_runs k : (k <= n)%nat -> exists s l u, lu r msub n a k = Ret (s, l, u) /\ good k s l u.
Proof.
  induction k as [|k IH]; intros K.
  - do 3 eexists. split; [reflexivity|]. repeat split; intros; try lia; assumption.
  - destruct (IH ltac:(lia)) as (s & l & u & E & Gd). cbn [lu]. rewrite E. cbn [bind]. destruct (pivot k s l u ltac:(lia) Gd) as (i & I & V).
    pose proof (lu_step r msub a n M Hr Hm Hn aM k s l u ltac:(lia) Gd) as St. cbv zeta in St, V |- *.
    set (v := fun i => msub (a (s i) k) k (l i) (fun m => u m k)) in *. set (q := biggest v k (n - 1 - k)) in *.
    assert (Z : v q <> 0). { destruct (biggest_ok v k (n - 1 - k)) as [_ B]. specialize (B i ltac:(lia)). fold q in B. intros Z. rewrite Z, Rabs_R0 in B. fold (v i) in V. pose proof (Rabs_pos_lt _ V). lra. }
    change (msub (a (s q) k) k (l q) (fun m => u m k)) with (v q). destruct (Req_EM_T (v q) 0) as [|_]; [contradiction|]. do 3 eexists. split; [reflexivity|]. apply St. exact Z.
Qed.

(** Back substitution. *)
Lemma recip x y : y <> 0 -> Rabs (r (x * r (1 / y)) * y - x) <= 21 / 10 * u64 * Rabs (r (x * r (1 / y)) * y).
Proof.
  intros Y. pose proof u64_bounds as U. pose proof (Hr (1 / y)) as A. pose proof (Hr (x * r (1 / y))) as B. set (p := r (1 / y)) in *. set (z := r (x * p)) in *.
  assert (P1 : Rabs (p * y - 1) <= u64). { replace (p * y - 1) with ((p - 1 / y) * y) by (field; exact Y). rewrite Rabs_mult. apply Rle_trans with (u64 * Rabs (1 / y) * Rabs y); [apply Rmult_le_compat_r; [apply Rabs_pos|exact A]|]. rewrite Rmult_assoc, <- Rabs_mult. replace (1 / y * y) with 1 by (field; exact Y). rewrite Rabs_R1. lra. }
  assert (P2 : Rabs (x * p * y - x) <= u64 * Rabs x). { replace (x * p * y - x) with (x * (p * y - 1)) by ring. rewrite Rabs_mult. pose proof (Rabs_pos x). nra. }
  assert (P3 : Rabs (z * y - x * p * y) <= u64 * Rabs (x * p * y)). { replace (z * y - x * p * y) with ((z - x * p) * y) by ring. rewrite (Rabs_mult (z - x * p)), (Rabs_mult (x * p)), <- Rmult_assoc. apply Rmult_le_compat_r; [apply Rabs_pos|exact B]. }
  assert (Q1 : Rabs (x * p * y) <= (1 + u64) * Rabs x). { replace (x * p * y) with ((x * p * y - x) + x) by ring. eapply Rle_trans; [apply Rabs_triang|]. lra. }
  assert (Q : Rabs (z * y - x) <= 201 / 100 * u64 * Rabs x). { replace (z * y - x) with ((z * y - x * p * y) + (x * p * y - x)) by ring. eapply Rle_trans; [apply Rabs_triang|]. pose proof (Rabs_pos x). assert (u64 * Rabs (x * p * y) <= u64 * ((1 + u64) * Rabs x)) by (apply Rmult_le_compat_l; lra). assert (u64 * u64 * Rabs x <= / 1000 * u64 * Rabs x) by (apply Rmult_le_compat_r; [lra|apply Rmult_le_compat_r; lra]). assert (0 <= u64 * Rabs x) by (apply Rmult_le_pos; lra). lra. }
  assert (C : Rabs x <= Rabs (z * y) + Rabs (z * y - x)) by (pose proof (Rabs_triang (z * y) (- (z * y - x))) as T; rewrite Rabs_Ropp in T; replace (z * y + - (z * y - x)) with x in T by ring; exact T).
  pose proof (Rabs_pos x). pose proof (Rabs_pos (z * y)). set (X := Rabs x) in *. set (V := Rabs (z * y)) in *. set (E := Rabs (z * y - x)) in *. assert (201 / 100 * u64 * X <= / 1000 * X) by (apply Rmult_le_compat_r; lra). assert (X <= 1002 / 1000 * V) by lra. assert (u64 * X <= u64 * (1002 / 1000 * V)) by (apply Rmult_le_compat_l; lra). assert (0 <= u64 * V) by (apply Rmult_le_pos; lra). lra.
Qed.
Lemma fdiag_old c b k i : (i < k)%nat -> forward_diag r msub c b k i = forward_diag r msub c b (S i) i.
Proof.
  induction k as [|k IH]; intros I; [lia|]. destruct (Nat.eq_dec i k) as [->|]; [reflexivity|]. cbn [forward_diag]. destruct (Nat.eqb_spec i k); [lia|]. rewrite IH by lia. reflexivity.
Qed.
Lemma fdiag_res c b i : (i < n)%nat -> c i i <> 0 -> let y := forward_diag r msub c b n in
  Rabs (y i * c i i - (b i - sum (fun j => c i j * y j) i)) <= 21 / 10 * g * (sum (fun j => Rabs (c i j * y j)) i + Rabs (y i * c i i)).
Proof.
  intros I Z y. assert (E : y i = r (msub (b i) i (c i) (forward_diag r msub c b i) * r (1 / c i i))).
  { unfold y. rewrite fdiag_old by exact I. cbn [forward_diag]. now rewrite Nat.eqb_refl. }
  assert (F : forall j, (j < i)%nat -> forward_diag r msub c b i j = y j) by (intros j J; unfold y; rewrite (fdiag_old c b i j), (fdiag_old c b n j) by lia; reflexivity).
  pose proof (msub_g msub n Hm Hn (b i) i (c i) (forward_diag r msub c b i) ltac:(lia)) as A. fold g in A.
  rewrite (sum_ext (fun j => c i j * forward_diag r msub c b i j) (fun j => c i j * y j)) in A by (intros j J; now rewrite F).
  rewrite (sum_ext (fun j => Rabs (c i j * forward_diag r msub c b i j)) (fun j => Rabs (c i j * y j))) in A by (intros j J; now rewrite F).
  set (v := msub (b i) i (c i) (forward_diag r msub c b i)) in *. pose proof (recip v (c i i) Z) as Q. rewrite <- E in Q.
  set (s := sum (fun j => c i j * y j) i) in *. set (t := sum (fun j => Rabs (c i j * y j)) i) in *.
  assert (T : Rabs s <= t) by apply sum_abs. set (Y := y i * c i i) in *. set (e := Rabs (Y - (b i - s))).
  assert (B : Rabs (b i) <= Rabs Y + t + e).
  { replace (b i) with (Y + (s + - (Y - (b i - s)))) by ring. eapply Rle_trans; [apply Rabs_triang|]. pose proof (Rabs_triang s (- (Y - (b i - s)))) as X. rewrite Rabs_Ropp in X. fold e in X. lra. }
  assert (B2 : e <= g * (Rabs (b i) + t) + 21 / 10 * u64 * Rabs Y).
  { unfold e. replace (Y - (b i - s)) with ((v - (b i - s)) + (Y - v)) by ring. eapply Rle_trans; [apply Rabs_triang|]. lra. }
  pose proof (Rabs_pos Y). assert (0 <= t) by (pose proof (Rabs_pos s); lra). assert (0 <= e) by apply Rabs_pos. pose proof u64_bounds as U. fold g in Gr. set (Z' := Rabs Y) in *.
  assert (G4 : 202 / 100 * u64 <= g) by (unfold g; pose proof (pos_INR n); nra).
  assert (g * (Rabs (b i) + t) <= g * (Z' + 2 * t + e)) by (apply Rmult_le_compat_l; lra). assert (g * e <= 1 / 1000 * e) by (apply Rmult_le_compat_r; lra).
  assert (0 <= g * Z') by (apply Rmult_le_pos; lra). assert (0 <= g * t) by (apply Rmult_le_pos; lra). assert (21 / 10 * u64 * Z' <= 105 / 101 * g * Z') by (apply Rmult_le_compat_r; lra). nra.
Qed.
Lemma upper_ok u z : (forall i, (i < n)%nat -> u i i <> 0) -> (forall i j, (j < i)%nat -> u i j = 0) -> exists u', let x := upper_solve r msub n u z in
  (forall i j, (i < n)%nat -> (j < n)%nat -> Rabs (u' i j - u i j) <= 21 / 10 * g * Rabs (u i j)) /\ forall i, (i < n)%nat -> sum (fun j => u' i j * x j) n = z i.
Proof.
  intros D U0. set (rv := fun i => (n - 1 - i)%nat). assert (RV : forall i, (i < n)%nat -> (rv i < n)%nat /\ rv (rv i) = i) by (intros i I; unfold rv; split; lia).
  set (m := fun i j => u (rv i) (rv j)).
  pose proof (fdiag_res m (fun i => z (rv i))) as A. set (y := forward_diag r msub m (fun i => z (rv i)) n) in *. cbv zeta in A.
  assert (G : 0 <= 21 / 10 * g) by (fold g in Gr; pose proof u64_bounds; lra).
  assert (P : forall i, (i < n)%nat -> Rabs (sum (fun j => m i j * y j) n - z (rv i)) <= 21 / 10 * g * sum (fun j => Rabs (m i j * y j)) n).
  { intros i I. destruct (RV i I) as [I1 _]. specialize (A i I (D (rv i) I1)). fold y in A.
    assert (Z : forall j, (S i <= j < n)%nat -> m i j = 0) by (intros j J; unfold m; apply U0; unfold rv; lia).
    rewrite (sum_tail (fun j => m i j * y j) (S i) n), (sum_tail (fun j => Rabs (m i j * y j)) (S i) n); try lia; try (intros j J; rewrite Z by lia; rewrite Rmult_0_l; auto using Rabs_R0).
    cbn [sum]. rewrite (Rmult_comm (m i i)). match goal with |- Rabs (?s + ?v - ?w) <= _ => replace (s + v - w) with (v - (w - s)) by ring end. exact A. }
  exists (fun i j => pert (m (rv i)) y (z (rv (rv i))) n (rv j)). intros x.
  split.
  - intros i j I J. destruct (RV i I) as [I1 I2], (RV j J) as [J1 J2].
    destruct (pert_ok (m (rv i)) y (z (rv (rv i))) n _ G (P (rv i) I1)) as [Q _]. specialize (Q (rv j)). unfold m in Q at 2 3. rewrite I2, J2 in Q. rewrite I2 in *. exact Q.
  - intros i I. destruct (RV i I) as [I1 I2]. destruct (pert_ok (m (rv i)) y (z (rv (rv i))) n _ G (P (rv i) I1)) as [_ Q].
    rewrite <- sum_rev in Q. refine (eq_trans _ (eq_trans Q (f_equal z I2))). apply sum_ext. intros j J. reflexivity.
Qed.
Lemma two l u l' u' h : 0 <= h <= 1 / 1000 -> Rabs (l' - l) <= 21 / 10 * h * Rabs l -> Rabs (u' - u) <= 21 / 10 * h * Rabs u -> Rabs (l' * u' - l * u) <= 43 / 10 * h * Rabs (l * u).
Proof.
  intros H A B. rewrite Rabs_mult. replace (l' * u' - l * u) with ((l' - l) * u' + l * (u' - u)) by ring.
  assert (B' : Rabs u' <= 1003 / 1000 * Rabs u) by (replace u' with ((u' - u) + u) by ring; eapply Rle_trans; [apply Rabs_triang|]; pose proof (Rabs_pos u); nra).
  eapply Rle_trans; [apply Rabs_triang|]. rewrite !Rabs_mult. pose proof (Rabs_pos l). pose proof (Rabs_pos u). pose proof (Rabs_pos (l' - l)). pose proof (Rabs_pos u').
  assert (Rabs (l' - l) * Rabs u' <= 21 / 10 * h * Rabs l * (1003 / 1000 * Rabs u)) by (apply Rmult_le_compat; assumption).
  assert (Rabs l * Rabs (u' - u) <= Rabs l * (21 / 10 * h * Rabs u)) by (apply Rmult_le_compat_l; assumption).
  assert (0 <= h * (Rabs l * Rabs u)) by (apply Rmult_le_pos; [lra|now apply Rmult_le_pos]). nra.
Qed.
(** The residual of a solution, row by row. *)
Lemma solve_res s l u b : good n s l u -> let x := lu_solve r msub n s l u b in forall i, (i < n)%nat -> Rabs (sum (fun j => a i j * x j) n - b i) <= 63 / 10 * g * (w * M) * sum (fun j => Rabs (x j)) n.
Proof.
  intros Gd x. pose proof (entry a n M Hn aM n s l u (le_n n) M0 Gd) as En. pose proof (terms a n M Hn aM n s l u (le_n n) M0 Gd) as Te. fold g w in En, Te. fold g in Gr. destruct Gd as (S1 & S2 & D & L1 & U1 & L2 & U0).
  pose proof u64_bounds as Ub. pose proof (w_ge n Hn) as W. fold w in W. assert (WM : 0 <= w * M) by nra.
  assert (L11 : forall i, unit_lower l i i = 1) by (intros; unfold unit_lower; now rewrite Nat.eqb_refl).
  assert (L00 : forall i j, (i < j)%nat -> unit_lower l i j = 0) by (intros i j H; unfold unit_lower; destruct (Nat.eqb_spec i j); [lia|]; destruct (Nat.ltb_spec j i); [lia|reflexivity]).
  set (y := forward msub (unit_lower l) (fun i => b (s i)) n). destruct (forward_ok msub n Hm Hn (proj2 Gr) (unit_lower l) (fun i => b (s i)) L11 L00) as (l' & F1 & F2). fold g in F1. fold y in F2.
  destruct (upper_ok u y D U0) as (u' & V1 & V2). change (upper_solve r msub n u y) with x in V2.
  assert (Row : forall i, (i < n)%nat -> Rabs (sum (fun j => a (s i) j * x j) n - b (s i)) <= 63 / 10 * g * (w * M) * sum (fun j => Rabs (x j)) n).
  { intros i I. rewrite <- (F2 i I). rewrite (sum_ext (fun j => l' i j * y j) (fun m => l' i m * sum (fun j => u' m j * x j) n)) by (intros m Hm'; rewrite V2 by exact Hm'; reflexivity).
    rewrite <- sum_outer_swap, <- sum_minus, (sum_ext _ (fun j => (a (s i) j - sum (fun m => l' i m * u' m j) n) * x j)) by (intros; ring).
    apply sum_bound; [nra|]. intros j J. pose proof (En i j I J ltac:(lia)) as E1. pose proof (Te i j n I J (le_n n)) as T1.
    assert (E2 : Rabs (sum (fun m => l' i m * u' m j) n - sum (fun m => unit_lower l i m * u m j) n) <= 43 / 10 * g * (w * M)).
    { rewrite <- sum_minus. eapply Rle_trans; [apply sum_abs|]. apply Rle_trans with (43 / 10 * g * sum (fun m => Rabs (unit_lower l i m * u m j)) n); [|apply Rmult_le_compat_l; [lra|exact T1]].
      rewrite <- sum_scal. apply sum_le. intros m Hm'. apply two; [lra|now apply F1|now apply V1]. }
    set (t := sum (fun m => unit_lower l i m * u m j) n) in *. set (t' := sum (fun m => l' i m * u' m j) n) in *. replace (a (s i) j - t') with (- ((t - a (s i) j) + (t' - t))) by ring. rewrite Rabs_Ropp. eapply Rle_trans; [apply Rabs_triang|]. lra. }
  intros i I. destruct (Classical_Prop.classic (exists p, (p < n)%nat /\ s p = i)) as [(p & P & <-)|NE]; [now apply Row|exfalso].
  pose proof (S2 (fun j => if Nat.eqb j i then 1 else 0)) as X. rewrite (sum_ext _ (fun _ => 0)) in X by (intros p P; destruct (Nat.eqb_spec (s p) i); [exfalso; apply NE; now exists p|reflexivity]).
  rewrite sum_zero, (sum_one _ i n I) in X by (intros j J N; destruct (Nat.eqb_spec j i); [congruence|reflexivity]). rewrite Nat.eqb_refl in X. lra.
Qed.
End Lu2.

(** The growth factor. *)
Lemma pow_near z k : 0 <= z -> INR k * z <= 1 / 1000 -> (1 + z) ^ k <= 1 + 101 / 100 * (INR k * z).
Proof.
  intros Z. induction k as [|k IH]; [cbn; lra|]. rewrite S_INR. intros H. pose proof (pos_INR k). specialize (IH ltac:(nra)). cbn [pow]. assert (0 <= INR k * z) by nra. nra.
Qed.
Lemma w_le n : INR n <= 1000000 -> w n <= 101 / 100 * 2 ^ n.
Proof.
  intros Hn. pose proof (small_ng n Hn) as S. pose proof (g_range n Hn) as G. pose proof u64_bounds as U. unfold w, c1. set (g := 101 / 100 * ((INR n + 2) * u64)) in *. pose proof (pos_INR n) as N.
  replace (1 + (1 + g) * (1 + u64)) with (2 * (1 + (g + u64 + g * u64) / 2)) by field. rewrite Rpow_mult_distr. set (z := (g + u64 + g * u64) / 2).
  assert (Z : 0 <= z <= g) by (unfold z; split; [nra|nra]). assert (NZ : INR n * z <= 1 / 1000) by nra. pose proof (pow_near z n (proj1 Z) NZ) as P. assert (0 < 2 ^ n) by (apply pow_lt; lra).
  assert ((1 + z) ^ n <= 1002 / 1000) by lra. assert (0 <= (1 + z) ^ n) by (apply pow_le; lra). assert (2 ^ n * (1 + z) ^ n <= 1002 / 1000 * 2 ^ n) by nra. nra.
Qed.

Section Final.
Variables (r : R -> R) (msub : R -> nat -> (nat -> R) -> (nat -> R) -> R) (a : nat -> nat -> R) (n : nat) (M sg : R).
Hypothesis Hr : rel_ok r. Hypothesis Hm : msub_ok msub. Hypothesis Hn : INR n <= 1000000.
Hypothesis aM : forall i j, (i < n)%nat -> (j < n)%nat -> Rabs (a i j) <= M.
Hypothesis M0 : 0 <= M.
Hypothesis margin : forall x, sg * sg * sum (fun j => x j * x j) n <= sum (fun i => sum (fun j => a i j * x j) n * sum (fun j => a i j * x j) n) n.
Definition lu_eps : R := 7 * ((INR n + 2) * u64) * (2 ^ n * M).
Hypothesis far : INR n * lu_eps < sg.
Lemma eps_w : 63 / 10 * (101 / 100 * ((INR n + 2) * u64)) * (w n * M) <= lu_eps.
Proof.
  unfold lu_eps. pose proof (w_le n Hn) as W. pose proof u64_bounds. pose proof (pos_INR n). assert (0 <= (INR n + 2) * u64) by nra. set (h := (INR n + 2) * u64) in *. assert (w n * M <= 101 / 100 * (2 ^ n * M)) by nra. assert (0 <= h * (w n * M)). { apply Rmult_le_pos; [lra|]. pose proof (w_ge n Hn). nra. } nra.
Qed.
Lemma inverse_res : exists x, lu_inverse r msub n a = Ret x /\
  forall i j, (i < n)%nat -> (j < n)%nat -> Rabs (sum (fun m => a i m * x m j) n - (if Nat.eqb i j then 1 else 0)) <= lu_eps * sum (fun m => Rabs (x m j)) n.
Proof.
  pose proof eps_w as E. pose proof (w_ge n Hn) as W. pose proof u64_bounds as U. pose proof (pos_INR n) as N.
  assert (P : 0 <= (INR n + 2) * u64 * (w n * M)) by (apply Rmult_le_pos; nra).
  assert (F : INR n * (2 * (101 / 100 * ((INR n + 2) * u64)) * (w n * M)) < sg) by (apply Rle_lt_trans with (INR n * lu_eps); [apply Rmult_le_compat_l; lra|exact far]).
  destruct (lu_runs r msub a n M sg Hr Hm Hn aM M0 margin F n (le_n n)) as (s & l & u & L & Gd).
  unfold lu_inverse. rewrite L. cbn [bind]. eexists. split; [reflexivity|]. intros i j I J. cbv beta.
  pose proof (solve_res r msub a n M sg Hr Hm Hn aM M0 margin s l u (fun m => if Nat.eqb m j then 1 else 0) Gd i I) as R. cbv zeta in R. eapply Rle_trans; [exact R|]. apply Rmult_le_compat_r; [apply sum_pos; intros; apply Rabs_pos|exact E].
Qed.
End Final.
