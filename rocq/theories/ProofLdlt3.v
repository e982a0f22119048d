(** The factorization runs to the end, and its backward error. *)
From Coq Require Import Reals Arith Lra Lia Psatz.
From Flocq Require Import Core.
From Verif Require Import Base ModelLdltFloat SpecFloatOps SpecLdltFloat ProofLdlt ProofLdlt2 ProofStrapdownFloat.
Open Scope R_scope.

Section Factor.
Variables (r : R -> R) (msub : R -> nat -> (nat -> R) -> (nat -> R) -> R) (a : nat -> nat -> R) (n : nat) (lam : R).
Hypothesis Hr : rel_ok r. Hypothesis Hm : msub_ok msub. Hypothesis Hn : INR n <= 1000000.
Let g := 101 / 100 * ((INR n + 2) * u64).
Hypothesis asym : forall i j, a i j = a j i.
Hypothesis apos : forall i, (i < n)%nat -> 0 < a i i.
Hypothesis asq : forall i j, (i < n)%nat -> (j < n)%nat -> Rabs (a i j) <= sqrt (a i i) * sqrt (a j j).
Hypothesis pd : forall k x, (k <= n)%nat -> lam * sum (fun i => a i i * (x i * x i)) k <= sum (fun i => sum (fun j => a i j * (x i * x j)) k) k.
Hypothesis Lam : 10 * (INR n * g) <= lam <= 1.
Hypothesis Lam0 : 0 < lam.
Hypothesis small : INR n * g <= 1 / 1000.

Lemma g_range : 2 * u64 <= g <= 1 / 1000.
Proof. pose proof u64_bounds as U. pose proof (pos_INR n) as N. unfold g. split; nra. Qed.
Lemma msub_g c k x y : (k <= n)%nat -> Rabs (msub c k x y - (c - sum (fun j => x j * y j) k)) <= g * (Rabs c + sum (fun j => Rabs (x j * y j)) k).
Proof.
  intros K. apply le_INR in K. eapply Rle_trans; [apply Hm; lra|]. apply Rmult_le_compat_r.
  - pose proof (Rabs_pos c). pose proof (sum_pos (fun j => Rabs (x j * y j)) k ltac:(intros; apply Rabs_pos)). lra.
  - unfold g. apply Rmult_le_compat_l; [lra|]. apply Rmult_le_compat_r; [pose proof u64_bounds; lra|lra].
Qed.
(** The right-hand side with rounded products. *)
Lemma msub_t c k (x d w : nat -> R) : (k <= n)%nat ->
  Rabs (msub c k x (fun j => r (d j * w j)) - (c - sum (fun j => x j * d j * w j) k)) <= g * Rabs c + 9 / 5 * g * sum (fun j => Rabs (x j * d j * w j)) k.
Proof.
  intros K. pose proof (msub_g c k x (fun j => r (d j * w j)) K) as A. pose proof g_range as G. pose proof u64_bounds as U. set (B := sum (fun j => Rabs (x j * d j * w j)) k).
  assert (B0 : 0 <= B) by (apply sum_pos; intros; apply Rabs_pos).
  assert (E1 : Rabs (sum (fun j => x j * r (d j * w j)) k - sum (fun j => x j * d j * w j) k) <= u64 * B).
  { rewrite <- sum_minus. eapply Rle_trans; [apply sum_abs|]. unfold B. rewrite <- sum_scal. apply sum_le. intros j J.
    replace (x j * r (d j * w j) - x j * d j * w j) with (x j * (r (d j * w j) - d j * w j)) by ring. replace (x j * d j * w j) with (x j * (d j * w j)) by ring. rewrite !(Rabs_mult (x j)).
    replace (u64 * (Rabs (x j) * Rabs (d j * w j))) with (Rabs (x j) * (u64 * Rabs (d j * w j))) by ring. apply Rmult_le_compat_l; [apply Rabs_pos|apply Hr]. }
  assert (E2 : sum (fun j => Rabs (x j * r (d j * w j))) k <= 11 / 10 * B).
  { unfold B. rewrite <- sum_scal. apply sum_le. intros j J. replace (x j * d j * w j) with (x j * (d j * w j)) by ring. rewrite !(Rabs_mult (x j)).
    replace (11 / 10 * (Rabs (x j) * Rabs (d j * w j))) with (Rabs (x j) * (11 / 10 * Rabs (d j * w j))) by ring. apply Rmult_le_compat_l; [apply Rabs_pos|].
    pose proof (Hr (d j * w j)) as H. pose proof (Rabs_pos (d j * w j)) as P. replace (r (d j * w j)) with ((r (d j * w j) - d j * w j) + d j * w j) by ring. eapply Rle_trans; [apply Rabs_triang|]. nra. }
  assert (E3 : g * (Rabs c + sum (fun j => Rabs (x j * r (d j * w j))) k) <= g * (Rabs c + 11 / 10 * B)) by (apply Rmult_le_compat_l; lra).
  match goal with |- Rabs (?s - (c - ?t)) <= _ => replace (s - (c - t)) with ((s - (c - sum (fun j => x j * r (d j * w j)) k)) + - (sum (fun j => x j * r (d j * w j)) k - t)) by ring end.
  eapply Rle_trans; [apply Rabs_triang|]. rewrite Rabs_Ropp. assert (u64 * B <= 1 / 2 * g * B) by (apply Rmult_le_compat_r; lra). nra.
Qed.
(** A quotient, multiplied by the divisor again. *)
Lemma quot x y : y <> 0 -> Rabs (r (x / y) * y - x) <= u64 * Rabs x /\ Rabs (r (x / y) * y - x) <= 101 / 100 * u64 * Rabs (r (x / y) * y).
Proof.
  intros Y. pose proof (Hr (x / y)) as A. pose proof u64_bounds as U. assert (B : Rabs (r (x / y) * y - x) <= u64 * Rabs x).
  { replace (r (x / y) * y - x) with ((r (x / y) - x / y) * y) by (field; exact Y). rewrite Rabs_mult. replace (Rabs x) with (Rabs (x / y) * Rabs y) by (rewrite <- Rabs_mult; f_equal; field; exact Y).
    rewrite <- Rmult_assoc. apply Rmult_le_compat_r; [apply Rabs_pos|exact A]. }
  split; [exact B|]. set (v := r (x / y) * y) in *. assert (C : Rabs x <= Rabs v + Rabs (v - x)) by (pose proof (Rabs_triang v (- (v - x))) as T; rewrite Rabs_Ropp in T; replace (v + - (v - x)) with x in T by ring; exact T).
  pose proof (Rabs_pos v). pose proof (Rabs_pos x). pose proof (Rabs_pos (v - x)).
  set (X := Rabs x) in *. set (V := Rabs v) in *. set (W := Rabs (v - x)) in *. assert (X <= 1001 / 1000 * V) by nra. nra.
Qed.

Definition good (k : nat) (l : nat -> nat -> R) (d : nat -> R) : Prop :=
  (forall i, l i i = 1) /\ (forall i j, (i < j)%nat -> l i j = 0) /\ (forall j, (j < k)%nat -> 0 < d j) /\
  (forall i j, (j < k)%nat -> (j <= i < n)%nat ->
     Rabs (a i j - sum (fun m => l i m * d m * l j m) (S j)) <= g * Rabs (a i j) + 2 * g * sum (fun m => Rabs (l i m * d m * l j m)) (S j)).

Lemma factor_good k : (k <= n)%nat -> exists l d, factor r msub a k = Ret (l, d) /\ good k l d.
Proof.
  pose proof g_range as G. pose proof u64_bounds as U.
  induction k as [|k IH]; intros K.
  - do 2 eexists. split; [reflexivity|]. split; [intros; now rewrite Nat.eqb_refl|]. split; [intros i j H; destruct (Nat.eqb_spec i j); [lia|reflexivity]|]. split; intros; lia.
  - destruct (IH ltac:(lia)) as (l & d & E & L1 & L0 & D & B). cbn [factor]. rewrite E. cbn [bind].
    set (t := fun j => r (d j * l k j)). set (dk := msub (a k k) k (l k) t).
    set (l' := fun i j => if andb (Nat.eqb j k) (Nat.ltb k i) then r (msub (a i k) k (l i) t / dk) else l i j). set (d' := fun j => if Nat.eqb j k then dk else d j).
    assert (dold : forall j, (j < k)%nat -> d' j = d j) by (intros j J; unfold d'; destruct (Nat.eqb_spec j k); [lia|reflexivity]).
    assert (dnew : d' k = dk) by (unfold d'; now rewrite Nat.eqb_refl).
    assert (lold : forall i j, (j < k)%nat -> l' i j = l i j) by (intros i j J; unfold l'; destruct (Nat.eqb_spec j k); [lia|reflexivity]).
    assert (ldia : forall i, l' i i = 1) by (intros i; unfold l'; destruct (Nat.eqb_spec i k) as [->|]; [rewrite Nat.ltb_irrefl|]; cbn [andb]; apply L1).
    assert (lup : forall i j, (i < j)%nat -> l' i j = 0).
    { intros i j H. unfold l'. destruct (Nat.ltb_spec k i); [|rewrite Bool.andb_false_r; now apply L0]. destruct (Nat.eqb_spec j k); [lia|]. now apply L0. }
    assert (told : forall i j m, (j < k)%nat -> (m < S j)%nat -> l' i m * d' m * l' j m = l i m * d m * l j m) by (intros i j m J M; rewrite !lold, dold by lia; reflexivity).
    assert (B' : forall i j, (j < k)%nat -> (j <= i < n)%nat -> Rabs (a i j - sum (fun m => l' i m * d' m * l' j m) (S j)) <= g * Rabs (a i j) + 2 * g * sum (fun m => Rabs (l' i m * d' m * l' j m)) (S j)).
    { intros i j J I. rewrite (sum_ext (fun m => l' i m * d' m * l' j m) (fun m => l i m * d m * l j m)) by (intros; now apply told).
      rewrite (sum_ext (fun m => Rabs (l' i m * d' m * l' j m)) (fun m => Rabs (l i m * d m * l j m))) by (intros; f_equal; now apply told). now apply B. }
    (* row i of the new column, before the division *)
    assert (S1 : forall i, Rabs (msub (a i k) k (l i) t - (a i k - sum (fun m => l' i m * d' m * l' k m) k)) <= g * Rabs (a i k) + 9 / 5 * g * sum (fun m => Rabs (l' i m * d' m * l' k m)) k).
    { intros i. rewrite (sum_ext (fun m => l' i m * d' m * l' k m) (fun m => l i m * d m * l k m)) by (intros m M; rewrite !lold, dold by lia; reflexivity).
      rewrite (sum_ext (fun m => Rabs (l' i m * d' m * l' k m)) (fun m => Rabs (l i m * d m * l k m))) by (intros m M; rewrite !lold, dold by lia; reflexivity). apply msub_t. lia. }
    assert (Kn : INR (S k) <= INR n) by (apply le_INR; exact K). assert (Kg : INR (S k) * g <= INR n * g) by (apply Rmult_le_compat_r; lra).
    assert (DP : 0 < d' k).
    { apply (pivot_pos l' d' a k g lam ldia lup).
      - intros j J. rewrite dold by exact J. now apply D.
      - exact asym.
      - intros i I. apply apos. lia.
      - intros i j I J. apply asq; lia.
      - lra.
      - intros i j J I. apply B'; [exact J|lia].
      - cbn [sum]. rewrite ldia, dnew. pose proof (S1 k) as S. fold dk in S. rewrite (Rabs_right (a k k)) in S by (apply Rle_ge, Rlt_le, apos; lia).
        replace (a k k - (sum (fun m => l' k m * d' m * l' k m) k + 1 * dk * 1)) with (- (dk - (a k k - sum (fun m => l' k m * d' m * l' k m) k))) by ring. rewrite Rabs_Ropp.
        eapply Rle_trans; [exact S|]. apply Rplus_le_compat_l.
        rewrite (sum_ext (fun m => Rabs (l' k m * d' m * l' k m)) (fun m => l' k m * d' m * l' k m)).
        + assert (P : 0 <= sum (fun m => l' k m * d' m * l' k m) k).
          { apply sum_pos. intros m M. replace (l' k m * d' m * l' k m) with (d' m * (l' k m * l' k m)) by ring. apply Rmult_le_pos; [rewrite dold by exact M; now apply Rlt_le, D|apply Rle_0_sqr]. }
          apply Rmult_le_compat_r; [exact P|lra].
        + intros m M. apply Rabs_right, Rle_ge. replace (l' k m * d' m * l' k m) with (d' m * (l' k m * l' k m)) by ring. apply Rmult_le_pos; [rewrite dold by exact M; now apply Rlt_le, D|apply Rle_0_sqr].
      - intros x. apply pd. exact K.
      - lra.
      - exact Lam0.
      - lra. }
    rewrite dnew in DP. destruct (Req_EM_T dk 0) as [Z|Z]; [lra|]. exists l', d'. split; [reflexivity|].
    split; [exact ldia|]. split; [exact lup|]. split.
    { intros j J. destruct (Nat.eq_dec j k) as [->|]; [now rewrite dnew|]. rewrite dold by lia. apply D. lia. }
    intros i j J I. destruct (Nat.eq_dec j k) as [->|N]; [|apply B'; lia].
    cbn [sum]. rewrite (ldia k), dnew. pose proof (S1 i) as S. set (s := msub (a i k) k (l i) t) in *. set (M := sum (fun m => l' i m * d' m * l' k m) k) in *. set (MA := sum (fun m => Rabs (l' i m * d' m * l' k m)) k) in *.
    assert (MA0 : 0 <= MA) by (apply sum_pos; intros; apply Rabs_pos). rewrite !Rmult_1_r.
    assert (Q : Rabs (l' i k * dk - s) <= 101 / 100 * u64 * Rabs (l' i k * dk)).
    { destruct (Nat.eq_dec i k) as [->|Ni].
      - rewrite ldia. unfold s. fold dk. replace (1 * dk - dk) with 0 by ring. rewrite Rabs_R0. apply Rmult_le_pos; [lra|apply Rabs_pos].
      - replace (l' i k) with (r (s / dk)); [now apply quot|]. unfold l'. rewrite Nat.eqb_refl. destruct (Nat.ltb_spec k i); [reflexivity|lia]. }
    replace (a i k - (M + l' i k * dk)) with (- (s - (a i k - M)) - (l' i k * dk - s)) by ring. eapply Rle_trans; [apply Rabs_triang|]. rewrite !Rabs_Ropp.
    set (v := Rabs (l' i k * dk)) in *. assert (0 <= v) by apply Rabs_pos. assert (101 / 100 * u64 * v <= g * v) by (apply Rmult_le_compat_r; lra).
    assert (0 <= g * v) by (apply Rmult_le_pos; lra). assert (0 <= g * MA) by (apply Rmult_le_pos; lra). lra.
Qed.
End Factor.
