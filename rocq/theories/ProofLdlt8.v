(** The solver without rounding, and an arithmetic that meets the assumptions. *)
From Coq Require Import Reals Arith Lra Lia Psatz.
From Flocq Require Import Core Relative.
From Verif Require Import Base ModelLdltFloat SpecFloatOps SpecLdltFloat ProofLdlt ProofLdlt4 ProofStrapdownFloat.
Open Scope R_scope.

(** ** Exact arithmetic *)
Section Exact.
Variables (a : nat -> nat -> R) (n : nat).
Hypothesis asym : forall i j, a i j = a j i.
Let msub c k x y : R := c - sum (fun j => x j * y j) k.
Let r (x : R) := x.

Lemma factor_exact k l d : factor r msub a k = Ret (l, d) ->
  (forall i, l i i = 1) /\ (forall i j, (i < j)%nat -> l i j = 0) /\ (forall j, (j < k)%nat -> d j <> 0) /\ forall i j, (j < k)%nat -> (j <= i)%nat -> a i j = sum (fun m => l i m * d m * l j m) (S j).
Proof.
  revert l d. induction k as [|k IH]; intros l' d' E.
  - cbn in E. injection E as <- <-. split; [intros; now rewrite Nat.eqb_refl|]. split; [intros i j H; destruct (Nat.eqb_spec i j); [lia|reflexivity]|]. split; intros; lia.
  - cbn [factor] in E. destruct (factor r msub a k) as [[l d]| | | |] eqn:F; cbn [bind] in E; try discriminate. destruct (IH l d eq_refl) as (L1 & L0 & D & B). clear IH F.
    set (t := fun j => r (d j * l k j)) in *. set (dk := msub (a k k) k (l k) t) in *. destruct (Req_EM_T dk 0) as [|Z]; [discriminate|]. injection E as <- <-.
    set (l' := fun i j => if andb (Nat.eqb j k) (Nat.ltb k i) then r (msub (a i k) k (l i) t / dk) else l i j). set (d' := fun j => if Nat.eqb j k then dk else d j).
    assert (dold : forall j, (j < k)%nat -> d' j = d j) by (intros j J; unfold d'; destruct (Nat.eqb_spec j k); [lia|reflexivity]).
    assert (dnew : d' k = dk) by (unfold d'; now rewrite Nat.eqb_refl).
    assert (lold : forall i j, (j < k)%nat -> l' i j = l i j) by (intros i j J; unfold l'; destruct (Nat.eqb_spec j k); [lia|reflexivity]).
    assert (ldia : forall i, l' i i = 1) by (intros i; unfold l'; destruct (Nat.eqb_spec i k) as [->|]; [rewrite Nat.ltb_irrefl|]; cbn [andb]; apply L1).
    assert (lup : forall i j, (i < j)%nat -> l' i j = 0).
    { intros i j H. unfold l'. destruct (Nat.ltb_spec k i); [|rewrite Bool.andb_false_r; now apply L0]. destruct (Nat.eqb_spec j k); [lia|]. now apply L0. }
    split; [exact ldia|]. split; [exact lup|].
    cut ((forall j, (j < S k)%nat -> d' j <> 0) /\ forall i j, (j < S k)%nat -> (j <= i)%nat -> a i j = sum (fun m => l' i m * d' m * l' j m) (S j)); [intros [X1 X2]; split; [exact X1|exact X2]|].
    split; [intros j J; destruct (Nat.eq_dec j k) as [->|]; [now rewrite dnew|rewrite dold by lia; apply D; lia]|].
    intros i j J I. destruct (Nat.eq_dec j k) as [->|N].
    + cbn [sum]. rewrite ldia, dnew, (sum_ext _ (fun m => l i m * t m)) by (intros m M; unfold t, r; rewrite !lold, dold by lia; ring).
      replace (l' i k) with (msub (a i k) k (l i) t / dk); [unfold msub at 1; field; exact Z|]. destruct (Nat.eq_dec i k) as [->|Ni]; [rewrite ldia; fold dk; field; exact Z|].
      unfold l'. rewrite Nat.eqb_refl. destruct (Nat.ltb_spec k i); [reflexivity|lia].
    + rewrite (B i j) by lia. apply sum_ext. intros m M. rewrite !lold, dold by lia. reflexivity.
Qed.
Lemma forward_exact l b i k : (i < k)%nat -> let y := forward msub l b k in y i + sum (fun j => l i j * y j) i = b i.
Proof.
  intros I y. assert (E : y i = b i - sum (fun j => l i j * forward msub l b i j) i).
  { unfold y. rewrite forward_old by exact I. cbn [forward]. now rewrite Nat.eqb_refl. }
  rewrite E, (sum_ext (fun j => l i j * forward msub l b i j) (fun j => l i j * y j)); [ring|]. intros j J. unfold y. rewrite (forward_old msub l b i j), (forward_old msub l b k j) by lia. reflexivity.
Qed.
Lemma ldlt_exact b x : ldlt_nat r msub n a b = Ret x -> forall i, (i < n)%nat -> sum (fun j => a i j * x j) n = b i.
Proof.
  unfold ldlt_nat. destruct (factor r msub a n) as [[l d]| | | |] eqn:F; cbn [bind]; try discriminate. destruct (factor_exact n l d F) as (L1 & L0 & D & B).
  set (y := forward msub l b n). set (z := fun i => r (y i / d i)). intros E. injection E as <-. set (x := backward msub n l z).
  assert (Y : forall i, (i < n)%nat -> sum (fun j => l i j * y j) n = b i).
  { intros i I. rewrite (sum_tail _ (S i) n) by (try lia; intros j J; rewrite L0 by lia; ring). cbn [sum]. rewrite L1. pose proof (forward_exact l b i n I) as Q. cbv zeta in Q. fold y in Q. lra. }
  assert (X : forall m, (m < n)%nat -> sum (fun j => l j m * x j) n = z m).
  { intros m M. set (rv := fun i => (n - 1 - i)%nat). pose proof (forward_exact (fun i j => l (rv j) (rv i)) (fun i => z (rv i)) (rv m) n ltac:(unfold rv; lia)) as Q. cbv beta zeta in Q.
    set (w := forward msub (fun i j => l (rv j) (rv i)) (fun i => z (rv i)) n) in Q. replace (rv (rv m)) with m in Q by (unfold rv; lia).
    assert (XW : forall j, x j = w (rv j)) by reflexivity. rewrite <- (sum_rev (fun j => l j m * x j)).
    rewrite (sum_ext _ (fun j => l (rv j) m * w j)) by (intros j J; fold (rv j); rewrite XW; replace (rv (rv j)) with j by (unfold rv; lia); reflexivity).
    rewrite (sum_tail _ (S (rv m)) n) by (try (unfold rv; lia); intros j J; rewrite L0 by (unfold rv in *; lia); ring). cbn [sum]. replace (rv (rv m)) with m by (unfold rv; lia). rewrite L1. lra. }
  assert (A : forall i j, (i < n)%nat -> (j < n)%nat -> a i j = sum (fun m => l i m * d m * l j m) n).
  { assert (A1 : forall i j, (j <= i < n)%nat -> a i j = sum (fun m => l i m * d m * l j m) n) by (intros i j J; rewrite (B i j) by lia; symmetry; apply sum_tail; [lia|]; intros m M; rewrite (L0 j m) by lia; ring).
    intros i j I J. destruct (le_lt_dec j i); [apply A1; lia|]. rewrite asym, A1 by lia. apply sum_ext. intros; ring. }
  intros i I. rewrite (sum_ext _ (fun j => sum (fun m => l i m * d m * l j m * x j) n)) by (intros j J; rewrite A by assumption; now rewrite <- sum_scar).
  rewrite sum_swap. rewrite <- (Y i I). apply sum_ext. intros m M. rewrite (sum_ext _ (fun j => l i m * d m * (l j m * x j))) by (intros; ring). rewrite sum_scal, (X m M). unfold z, r. field. now apply D.
Qed.
End Exact.

(** ** The plain loop *)
Lemma loop_scal u e S b L P : 0 <= u <= 1 / 9000000000000000 -> u <= e -> e <= 1005 / 1000 * 1000002 * u -> Rabs S <= b -> Rabs (L - S) <= e * b -> forall r, (forall x, Rabs (r x - x) <= u * Rabs x) ->
  Rabs (r (L + r P) - (S + P)) <= (e + 1005 / 1000 * u) * (b + Rabs P).
Proof.
  intros U E1 E2 SB LE r Hr. pose proof (Hr P) as H1. pose proof (Hr (L + r P)) as H2. set (q := r P) in *. set (w := r (L + q)) in *.
  pose proof (Rabs_pos P) as P0. assert (B0 : 0 <= b) by (pose proof (Rabs_pos S); lra).
  assert (LB : Rabs L <= (1 + e) * b) by (replace L with ((L - S) + S) by ring; eapply Rle_trans; [apply Rabs_triang|]; lra).
  assert (QB : Rabs q <= (1 + u) * Rabs P) by (replace q with ((q - P) + P) by ring; eapply Rle_trans; [apply Rabs_triang|]; lra).
  assert (WB : Rabs (w - (L + q)) <= u * ((1 + e) * b + (1 + u) * Rabs P)) by (eapply Rle_trans; [exact H2|]; apply Rmult_le_compat_l; [lra|]; eapply Rle_trans; [apply Rabs_triang|]; lra).
  replace (w - (S + P)) with ((w - (L + q)) + ((L - S) + (q - P))) by ring. eapply Rle_trans; [apply Rabs_triang|]. pose proof (Rabs_triang (L - S) (q - P)).
  assert (ue : u * e <= 1 / 1000 * u) by nra. assert (uu : u * u <= 1 / 1000 * u) by nra.
  assert (u * e * b <= 1 / 1000 * u * b) by (apply Rmult_le_compat_r; lra). assert (u * u * Rabs P <= 1 / 1000 * u * Rabs P) by (apply Rmult_le_compat_r; lra). assert (u * Rabs P <= e * Rabs P) by (apply Rmult_le_compat_r; lra).
  assert (0 <= u * b) by (apply Rmult_le_pos; lra). assert (0 <= u * Rabs P) by (apply Rmult_le_pos; lra). lra.
Qed.
Lemma u64_sharp : 0 < u64 <= 1 / 9000000000000000. Proof. rewrite u64_val. lra. Qed.
Lemma loop_ok r k x y : rel_ok r -> INR k <= 1000000 -> Rabs (loop_f r k x y - sum (fun j => x j * y j) k) <= 1005 / 1000 * (INR k + 1) * u64 * sum (fun j => Rabs (x j * y j)) k.
Proof.
  intros Hr. pose proof u64_sharp as U. induction k as [|k IH]; intros K.
  - cbn. rewrite Rminus_0_r, Rabs_R0. lra.
  - rewrite S_INR in *. pose proof (pos_INR k) as K0. cbn [loop_f sum].
    replace (1005 / 1000 * (INR k + 1 + 1) * u64) with (1005 / 1000 * (INR k + 1) * u64 + 1005 / 1000 * u64) by ring.
    apply loop_scal; [lra|nra|nra|apply sum_abs|apply IH; lra|exact Hr].
Qed.
Lemma msub_loop_ok r : rel_ok r -> msub_ok (msub_loop r).
Proof.
  intros Hr a k x y K. pose proof (loop_ok r k x y Hr K) as L. unfold msub_loop. pose proof (sum_abs (fun j => x j * y j) k) as SB. set (S := sum (fun j => x j * y j) k) in *. set (b := sum (fun j => Rabs (x j * y j)) k) in *. set (q := loop_f r k x y) in *.
  pose proof u64_sharp as U. pose proof (pos_INR k) as K0. pose proof (Rabs_pos a) as A0. assert (B0 : 0 <= b) by (pose proof (Rabs_pos S); lra). set (e := 1005 / 1000 * (INR k + 1) * u64) in *.
  assert (E : 0 <= e <= 1 / 1000) by (unfold e; split; nra).
  assert (QB : Rabs q <= (1 + e) * b) by (replace q with ((q - S) + S) by ring; eapply Rle_trans; [apply Rabs_triang|]; lra).
  pose proof (Hr (a - q)) as H. assert (AQ : Rabs (a - q) <= Rabs a + (1 + e) * b) by (eapply Rle_trans; [apply Rabs_triang|]; rewrite Rabs_Ropp; lra).
  assert (H' : Rabs (r (a - q) - (a - q)) <= u64 * (Rabs a + (1 + e) * b)) by (eapply Rle_trans; [exact H|]; apply Rmult_le_compat_l; lra).
  replace (r (a - q) - (a - S)) with ((r (a - q) - (a - q)) + - (q - S)) by ring. eapply Rle_trans; [apply Rabs_triang|]. rewrite Rabs_Ropp.
  set (ku := INR k * u64). assert (KU : 0 <= ku) by (apply Rmult_le_pos; lra). assert (Ee : e = 1005 / 1000 * (ku + u64)) by (unfold e, ku; ring).
  replace (101 / 100 * ((INR k + 2) * u64)) with (101 / 100 * (ku + 2 * u64)) by (unfold ku; ring).
  assert (u64 * e * b <= 1 / 1000 * u64 * b) by (apply Rmult_le_compat_r; [lra|nra]). assert (0 <= ku * b) by now apply Rmult_le_pos. assert (0 <= ku * Rabs a) by now apply Rmult_le_pos. assert (0 <= u64 * b) by (apply Rmult_le_pos; lra). assert (0 <= u64 * Rabs a) by (apply Rmult_le_pos; lra).
  rewrite Ee in *. lra.
Qed.
(** Rounding to 53 bits, with any exponent. *)
Definition rnd53 : R -> R := round radix2 (FLX_exp 53) ZnearestE.
Lemma rnd53_rel : rel_ok rnd53.
Proof.
  intros x. assert (P : Prec_gt_0 53) by reflexivity. pose proof (relative_error_N_FLX radix2 53 P (fun z => negb (Z.even z)) x) as H. unfold rnd53. eapply Rle_trans; [exact H|]. rewrite u64_val. cbn. lra.
Qed.
