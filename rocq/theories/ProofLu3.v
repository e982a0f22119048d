(** How far the computed inverse is from the inverse. *)
From Coq Require Import Reals Arith Lra Lia Psatz.
From Verif Require Import Base ModelLdltFloat ModelLuFloat SpecFloatOps SpecLdltFloat ProofLdlt ProofLdlt3 ProofLdlt4 ProofStrapdownFloat ProofLu ProofLu2.
Open Scope R_scope.

Lemma sq_abs x y : 0 <= y -> x * x <= y * y -> Rabs x <= y.
Proof. intros Y H. apply Rsqr_incr_0_var; [|exact Y]. rewrite <- Rsqr_abs. exact H. Qed.
Lemma two_squares f g n : sum (fun i => (f i + g i) * (f i + g i)) n <= 2 * sum (fun i => f i * f i) n + 2 * sum (fun i => g i * g i) n.
Proof.
  rewrite <- !sum_scal, <- sum_plus. apply sum_le. intros j _. pose proof (Rle_0_sqr (f j - g j)) as H. unfold Rsqr in H. lra.
Qed.
Lemma norm_scal s e D X Y : 0 < s -> 0 <= e -> 2 * e <= s -> s * s * D <= e * e * Y -> Y <= 2 * D + 2 * X -> s * s * X <= 1 -> 0 <= D -> D <= (2 * e / (s * s)) * (2 * e / (s * s)).
Proof.
  intros S E ES H1 H2 H3 D0. assert (SS : 0 < s * s) by nra. assert (EE : 4 * (e * e) <= s * s) by nra. assert (E2 : 0 <= e * e) by nra.
  assert (A : e * e * Y <= e * e * (2 * D + 2 * X)) by (apply Rmult_le_compat_l; lra).
  assert (B : s * s * D <= 4 * (e * e) * X). { assert (4 * (e * e) * D <= s * s * D) by (apply Rmult_le_compat_r; lra). lra. }
  assert (C : s * s * (s * s * D) <= 4 * (e * e)).
  { apply Rle_trans with (s * s * (4 * (e * e) * X)); [apply Rmult_le_compat_l; lra|]. replace (s * s * (4 * (e * e) * X)) with (4 * (e * e) * (s * s * X)) by ring. nra. }
  replace (2 * e / (s * s) * (2 * e / (s * s))) with (4 * (e * e) * (/ (s * s) * / (s * s))) by (field; lra).
  assert (I : 0 < / (s * s)) by now apply Rinv_0_lt_compat.
  replace D with (s * s * (s * s * D) * (/ (s * s) * / (s * s))) by (field; lra). apply Rmult_le_compat_r; [nra|exact C].
Qed.

Section Near.
Variables (a : nat -> nat -> R) (n : nat) (sg : R).
Hypothesis margin : forall x, sg * sg * sum (fun j => x j * x j) n <= sum (fun i => sum (fun j => a i j * x j) n * sum (fun j => a i j * x j) n) n.
Hypothesis sg0 : 0 < sg.

Lemma sol_size xs b : sum (fun i => b i * b i) n <= 1 -> (forall i, (i < n)%nat -> sum (fun j => a i j * xs j) n = b i) -> sg * sg * sum (fun j => xs j * xs j) n <= 1.
Proof.
  intros B H. eapply Rle_trans; [apply margin|]. rewrite (sum_ext _ (fun i => b i * b i)); [exact B|]. intros i I. now rewrite H by exact I.
Qed.
Lemma sol_entry xs b : sum (fun i => b i * b i) n <= 1 -> (forall i, (i < n)%nat -> sum (fun j => a i j * xs j) n = b i) -> forall j, (j < n)%nat -> Rabs (xs j) <= / sg.
Proof.
  intros B H j J. pose proof (sol_size xs b B H) as S. assert (I : 0 < / sg) by now apply Rinv_0_lt_compat. apply sq_abs; [lra|].
  assert (X : xs j * xs j <= sum (fun j => xs j * xs j) n) by (apply (sum_in (fun j => xs j * xs j)); [exact J|intros; apply Rle_0_sqr]).
  assert (SS : 0 < sg * sg) by nra. replace (/ sg * / sg) with (1 * / (sg * sg)) by (field; lra).
  replace (xs j * xs j) with (sg * sg * (xs j * xs j) * / (sg * sg)) by (field; lra). apply Rmult_le_compat_r; [left; now apply Rinv_0_lt_compat|]. nra.
Qed.
Lemma sol_dist x xs b dl : 0 <= dl -> 2 * (INR n * dl) <= sg -> sum (fun i => b i * b i) n <= 1 ->
  (forall i, (i < n)%nat -> sum (fun j => a i j * xs j) n = b i) ->
  (forall i, (i < n)%nat -> Rabs (sum (fun j => a i j * x j) n - b i) <= dl * sum (fun j => Rabs (x j)) n) ->
  forall j, (j < n)%nat -> Rabs (x j - xs j) <= 2 * (INR n * dl) / (sg * sg).
Proof.
  intros D0 Dn B H1 H2 j J. pose proof (rows_small _ x n dl D0 H2) as Q. cbv beta in Q. pose proof (margin (fun j => x j - xs j)) as Mg. cbv beta in Mg.
  rewrite (sum_ext (fun i => sum (fun j => a i j * (x j - xs j)) n * sum (fun j => a i j * (x j - xs j)) n) (fun i => (sum (fun j => a i j * x j) n - b i) * (sum (fun j => a i j * x j) n - b i))) in Mg.
  2:{ intros i I. rewrite <- (H1 i I), <- sum_minus. rewrite (sum_ext (fun j => a i j * (x j - xs j)) (fun j => a i j * x j - a i j * xs j)) by (intros; ring). reflexivity. }
  pose proof (two_squares (fun j => x j - xs j) xs n) as T. cbv beta in T. rewrite (sum_ext (fun i => (x i - xs i + xs i) * (x i - xs i + xs i)) (fun j => x j * x j)) in T by (intros; ring).
  pose proof (sol_size xs b B H1) as S. assert (E0 : 0 <= INR n * dl) by (apply Rmult_le_pos; [apply pos_INR|exact D0]).
  assert (D1 : 0 <= sum (fun j => (x j - xs j) * (x j - xs j)) n) by (apply sum_pos; intros; apply Rle_0_sqr).
  pose proof (norm_scal sg (INR n * dl) _ _ _ sg0 E0 Dn (Rle_trans _ _ _ Mg Q) T S D1) as F. assert (SS : 0 < / (sg * sg)) by (apply Rinv_0_lt_compat; nra).
  apply sq_abs; [apply Rmult_le_pos; lra|]. eapply Rle_trans; [|exact F]. apply (sum_in (fun j => (x j - xs j) * (x j - xs j))); [exact J|intros; apply Rle_0_sqr].
Qed.
(** A matrix nearby is nearly as far from singular. *)
Lemma margin_near af phi : 0 <= phi -> 2 * (INR n * phi) <= sg -> (forall i j, (i < n)%nat -> (j < n)%nat -> Rabs (af i j - a i j) <= phi) ->
  forall x, sg / 2 * (sg / 2) * sum (fun j => x j * x j) n <= sum (fun i => sum (fun j => af i j * x j) n * sum (fun j => af i j * x j) n) n.
Proof.
  intros P0 P1 H x. pose proof (margin x) as Mg.
  assert (R : forall i, (i < n)%nat -> Rabs (sum (fun j => (a i j - af i j) * x j) n) <= phi * sum (fun j => Rabs (x j)) n).
  { intros i I. eapply Rle_trans; [apply sum_abs|]. rewrite <- sum_scal. apply sum_le. intros j J. rewrite Rabs_mult. apply Rmult_le_compat_r; [apply Rabs_pos|]. rewrite Rabs_minus_sym. now apply H. }
  pose proof (rows_small (fun i => sum (fun j => (a i j - af i j) * x j) n) x n phi P0 R) as Q. cbv beta in Q.
  pose proof (two_squares (fun i => sum (fun j => af i j * x j) n) (fun i => sum (fun j => (a i j - af i j) * x j) n) n) as T. cbv beta in T.
  rewrite (sum_ext (fun i => (sum (fun j => af i j * x j) n + sum (fun j => (a i j - af i j) * x j) n) * (sum (fun j => af i j * x j) n + sum (fun j => (a i j - af i j) * x j) n)) (fun i => sum (fun j => a i j * x j) n * sum (fun j => a i j * x j) n)) in T.
  2:{ intros i I. rewrite <- sum_plus. rewrite (sum_ext (fun j => af i j * x j + (a i j - af i j) * x j) (fun j => a i j * x j)) by (intros; ring). reflexivity. }
  set (X := sum (fun j => x j * x j) n) in *. assert (X0 : 0 <= X) by (apply sum_pos; intros; apply Rle_0_sqr).
  set (e := INR n * phi) in *. assert (E0 : 0 <= e) by (apply Rmult_le_pos; [apply pos_INR|exact P0]). assert (EE : 4 * (e * e) <= sg * sg) by nra.
  assert (4 * (e * e) * X <= sg * sg * X) by (apply Rmult_le_compat_r; lra). lra.
Qed.
End Near.

Lemma one_col n j : sum (fun i => (if Nat.eqb i j then 1 else 0) * (if Nat.eqb i j then 1 else 0)) n <= 1.
Proof.
  destruct (le_lt_dec n j) as [L|L].
  - rewrite (sum_ext _ (fun _ => 0)), sum_zero; [lra|]. intros i I. destruct (Nat.eqb_spec i j); [lia|ring].
  - rewrite (sum_one _ j n L) by (intros i I N; destruct (Nat.eqb_spec i j); [congruence|ring]). rewrite Nat.eqb_refl. lra.
Qed.

Section Inverse.
Variables (r : R -> R) (msub : R -> nat -> (nat -> R) -> (nat -> R) -> R) (a xs : nat -> nat -> R) (n : nat) (M sg : R).
Hypothesis Hr : rel_ok r. Hypothesis Hm : msub_ok msub. Hypothesis Hn : INR n <= 1000000.
Hypothesis aM : forall i j, (i < n)%nat -> (j < n)%nat -> Rabs (a i j) <= M.
Hypothesis M0 : 0 <= M.
Hypothesis margin : forall x, sg * sg * sum (fun j => x j * x j) n <= sum (fun i => sum (fun j => a i j * x j) n * sum (fun j => a i j * x j) n) n.
Hypothesis inv : forall i j, (i < n)%nat -> (j < n)%nat -> sum (fun m => a i m * xs m j) n = if Nat.eqb i j then 1 else 0.
Hypothesis sg0 : 0 < sg.
Lemma eps_pos m : 0 <= m -> 0 <= lu_eps n m.
Proof. intros. unfold lu_eps. pose proof u64_bounds. pose proof (pos_INR n). assert (0 < 2 ^ n) by (apply pow_lt; lra). apply Rmult_le_pos; [|apply Rmult_le_pos; lra]. apply Rmult_le_pos; [lra|]. apply Rmult_le_pos; lra. Qed.
Lemma inverse_dist : 2 * (INR n * lu_eps n M) <= sg -> exists x, lu_inverse r msub n a = Ret x /\
  forall i j, (i < n)%nat -> (j < n)%nat -> Rabs (x i j - xs i j) <= 2 * (INR n * lu_eps n M) / (sg * sg).
Proof.
  intros F. pose proof (eps_pos M M0) as E0. assert (N0 : 0 <= INR n * lu_eps n M) by (apply Rmult_le_pos; [apply pos_INR|exact E0]).
  destruct (inverse_res r msub a n M sg Hr Hm Hn aM M0 margin ltac:(lra)) as (x & X1 & X2). exists x. split; [exact X1|]. intros i j I J.
  apply (sol_dist a n sg margin sg0 (fun i => x i j) (fun i => xs i j) (fun i => if Nat.eqb i j then 1 else 0) (lu_eps n M) E0 F (one_col n j)); [intros; now apply inv|intros; now apply X2|exact I].
Qed.
Variables (af : nat -> nat -> R) (v : R).
Hypothesis Hv : (INR n + 1) * u64 <= v <= 2 / 1000000000.
Hypothesis near : forall i j, (i < n)%nat -> (j < n)%nat -> Rabs (af i j - a i j) <= 9 * v * M.
Lemma inverse_dist_near : let dl := 24 * v * (2 ^ n * M) in 2 * (INR n * dl) <= sg -> exists x, lu_inverse r msub n af = Ret x /\
  forall i j, (i < n)%nat -> (j < n)%nat -> Rabs (x i j - xs i j) <= 2 * (INR n * dl) / (sg * sg) /\ Rabs (xs i j) <= / sg.
Proof.
  intros dl F. pose proof u64_bounds as U. pose proof (pos_INR n) as N. assert (P2 : 1 <= 2 ^ n) by (apply pow_R1_Rle; lra).
  assert (v0 : 0 < v) by nra. set (W := 2 ^ n * M) in *. assert (MW : M <= W) by (unfold W; nra). assert (VW : 0 <= v * W) by (apply Rmult_le_pos; lra). assert (VM : 0 <= v * M <= v * W) by (split; [apply Rmult_le_pos; lra|apply Rmult_le_compat_l; lra]).
  assert (D0 : 0 <= dl) by (unfold dl; lra). assert (N0 : 0 <= INR n * dl) by (apply Rmult_le_pos; lra).
  set (Mf := 101 / 100 * M). assert (Mf0 : 0 <= Mf) by (unfold Mf; lra).
  assert (afM : forall i j, (i < n)%nat -> (j < n)%nat -> Rabs (af i j) <= Mf).
  { intros i j I J. replace (af i j) with ((af i j - a i j) + a i j) by ring. eapply Rle_trans; [apply Rabs_triang|]. pose proof (near i j I J). pose proof (aM i j I J). unfold Mf. nra. }
  assert (Ee : lu_eps n Mf + 9 * v * M <= dl).
  { unfold lu_eps, dl, Mf. replace (2 ^ n * (101 / 100 * M)) with (101 / 100 * W) by (unfold W; ring). assert ((INR n + 2) * u64 <= 2 * v) by nra. assert ((INR n + 2) * u64 * W <= 2 * v * W) by (apply Rmult_le_compat_r; lra). lra. }
  pose proof (eps_pos Mf Mf0) as E0. pose proof VM as VM'.
  assert (G1 : 2 * (INR n * (9 * v * M)) <= sg). { apply Rle_trans with (2 * (INR n * dl)); [|exact F]. apply Rmult_le_compat_l; [lra|]. apply Rmult_le_compat_l; lra. }
  assert (Mg := margin_near a n sg margin af (9 * v * M) ltac:(lra) G1 near).
  assert (G2 : INR n * lu_eps n Mf < sg / 2).
  { destruct (Rle_lt_or_eq_dec _ _ N) as [N1|N1]; [|rewrite <- N1; lra]. assert (C : lu_eps n Mf <= 2 / 3 * dl).
    { unfold lu_eps, dl, Mf. replace (2 ^ n * (101 / 100 * M)) with (101 / 100 * W) by (unfold W; ring). assert ((INR n + 2) * u64 <= 2 * v) by nra. assert ((INR n + 2) * u64 * W <= 2 * v * W) by (apply Rmult_le_compat_r; lra). lra. }
    assert (INR n * lu_eps n Mf <= INR n * (2 / 3 * dl)) by (apply Rmult_le_compat_l; lra). lra. }
  destruct (inverse_res r msub af n Mf (sg / 2) Hr Hm Hn afM Mf0 Mg G2) as (x & X1 & X2). exists x. split; [exact X1|]. intros i j I J. split.
  - apply (sol_dist a n sg margin sg0 (fun i => x i j) (fun i => xs i j) (fun i => if Nat.eqb i j then 1 else 0) dl D0 F (one_col n j)); [intros; now apply inv| |exact I].
    intros k K. set (X := sum (fun m => Rabs (x m j)) n) in *. assert (X0 : 0 <= X) by (apply sum_pos; intros; apply Rabs_pos).
    replace (sum (fun m => a k m * x m j) n - (if Nat.eqb k j then 1 else 0)) with ((sum (fun m => af k m * x m j) n - (if Nat.eqb k j then 1 else 0)) + sum (fun m => (a k m - af k m) * x m j) n).
    2:{ rewrite (sum_ext (fun m => (a k m - af k m) * x m j) (fun m => a k m * x m j - af k m * x m j)) by (intros; ring). rewrite sum_minus. ring. }
    eapply Rle_trans; [apply Rabs_triang|]. apply Rle_trans with (lu_eps n Mf * X + 9 * v * M * X); [apply Rplus_le_compat; [now apply X2|]|rewrite <- Rmult_plus_distr_r; now apply Rmult_le_compat_r].
    eapply Rle_trans; [apply sum_abs|]. unfold X. rewrite <- sum_scal. apply sum_le. intros m Hm'. rewrite Rabs_mult. apply Rmult_le_compat_r; [apply Rabs_pos|]. rewrite Rabs_minus_sym. now apply near.
  - apply (sol_entry a n sg margin sg0 (fun i => xs i j) (fun i => if Nat.eqb i j then 1 else 0) (one_col n j)); [intros; now apply inv|exact I].
Qed.
End Inverse.

(** The same for any error of the entries. *)
Section Any.
Variables (r : R -> R) (msub : R -> nat -> (nat -> R) -> (nat -> R) -> R) (a xs af : nat -> nat -> R) (n : nat) (M sg phi : R).
Hypothesis Hr : rel_ok r. Hypothesis Hm : msub_ok msub. Hypothesis Hn : INR n <= 1000000.
Hypothesis aM : forall i j, (i < n)%nat -> (j < n)%nat -> Rabs (a i j) <= M.
Hypothesis M0 : 0 <= M.
Hypothesis margin : forall x, sg * sg * sum (fun j => x j * x j) n <= sum (fun i => sum (fun j => a i j * x j) n * sum (fun j => a i j * x j) n) n.
Hypothesis inv : forall i j, (i < n)%nat -> (j < n)%nat -> sum (fun m => a i m * xs m j) n = if Nat.eqb i j then 1 else 0.
Hypothesis sg0 : 0 < sg.
Hypothesis P0 : 0 <= phi.
Hypothesis near : forall i j, (i < n)%nat -> (j < n)%nat -> Rabs (af i j - a i j) <= phi.
Lemma inverse_dist_phi : let dl := lu_eps n (M + phi) + phi in 2 * (INR n * dl) < sg -> exists x, lu_inverse r msub n af = Ret x /\
  forall i j, (i < n)%nat -> (j < n)%nat -> Rabs (x i j - xs i j) <= 2 * (INR n * dl) / (sg * sg) /\ Rabs (xs i j) <= / sg.
Proof.
  intros dl F. pose proof (pos_INR n) as N. assert (Mf0 : 0 <= M + phi) by lra. pose proof (eps_pos n (M + phi) Mf0) as E0. set (e := lu_eps n (M + phi)) in *.
  assert (D0 : 0 <= dl) by (unfold dl; lra).
  assert (afM : forall i j, (i < n)%nat -> (j < n)%nat -> Rabs (af i j) <= M + phi).
  { intros i j I J. replace (af i j) with ((af i j - a i j) + a i j) by ring. eapply Rle_trans; [apply Rabs_triang|]. pose proof (near i j I J). pose proof (aM i j I J). lra. }
  assert (N1 : INR n * phi <= INR n * dl) by (apply Rmult_le_compat_l; unfold dl; lra). assert (N2 : INR n * e <= INR n * dl) by (apply Rmult_le_compat_l; unfold dl; lra).
  assert (Mg := margin_near a n sg margin af phi P0 ltac:(lra) near).
  destruct (inverse_res r msub af n (M + phi) (sg / 2) Hr Hm Hn afM Mf0 Mg ltac:(fold e; lra)) as (x & X1 & X2). fold e in X2. exists x. split; [exact X1|]. intros i j I J. split.
  - apply (sol_dist a n sg margin sg0 (fun i => x i j) (fun i => xs i j) (fun i => if Nat.eqb i j then 1 else 0) dl D0 ltac:(lra) (one_col n j)); [intros; now apply inv| |exact I].
    intros k K. set (X := sum (fun m => Rabs (x m j)) n) in *. assert (X0 : 0 <= X) by (apply sum_pos; intros; apply Rabs_pos).
    replace (sum (fun m => a k m * x m j) n - (if Nat.eqb k j then 1 else 0)) with ((sum (fun m => af k m * x m j) n - (if Nat.eqb k j then 1 else 0)) + sum (fun m => (a k m - af k m) * x m j) n).
    2:{ rewrite (sum_ext (fun m => (a k m - af k m) * x m j) (fun m => a k m * x m j - af k m * x m j)) by (intros; ring). rewrite sum_minus. ring. }
    eapply Rle_trans; [apply Rabs_triang|]. apply Rle_trans with (e * X + phi * X); [apply Rplus_le_compat; [now apply X2|]|unfold dl; lra].
    eapply Rle_trans; [apply sum_abs|]. unfold X. rewrite <- sum_scal. apply sum_le. intros m Hm'. rewrite Rabs_mult. apply Rmult_le_compat_r; [apply Rabs_pos|]. rewrite Rabs_minus_sym. now apply near.
  - apply (sol_entry a n sg margin sg0 (fun i => xs i j) (fun i => if Nat.eqb i j then 1 else 0) (one_col n j)); [intros; now apply inv|exact I].
Qed.
End Any.
