(** Entries and leading parts of a matrix that is positive by a margin. *)
From Coq Require Import Reals Arith Lra Lia Psatz.
From Verif Require Import SpecLdltFloat ProofLdlt.
Open Scope R_scope.

Section Nat.
Lemma sum_two f i j n : (i < n)%nat -> (j < n)%nat -> i <> j -> (forall m, (m < n)%nat -> m <> i -> m <> j -> f m = 0) -> sum f n = f i + f j.
Proof.
  intros I J N Z. rewrite (sum_ext f (fun m => (if Nat.eqb m i then f m else 0) + (if Nat.eqb m i then 0 else f m))); [|intros m M; destruct (Nat.eqb m i); ring].
  rewrite sum_plus, (@sum_one (fun m => if Nat.eqb m i then f m else 0) i n I), (@sum_one (fun m => if Nat.eqb m i then 0 else f m) j n J).
  - rewrite Nat.eqb_refl. destruct (Nat.eqb_spec j i); [congruence|reflexivity].
  - intros m M MJ. destruct (Nat.eqb_spec m i); [reflexivity|]. now apply Z.
  - intros m M MI. destruct (Nat.eqb_spec m i); [congruence|reflexivity].
Qed.
Variables (a : nat -> nat -> R) (n : nat) (lam : R).
Hypothesis full : forall x, lam * sum (fun i => a i i * (x i * x i)) n <= sum (fun i => sum (fun j => a i j * (x i * x j)) n) n.
Lemma pd_part k x : (k <= n)%nat -> lam * sum (fun i => a i i * (x i * x i)) k <= sum (fun i => sum (fun j => a i j * (x i * x j)) k) k.
Proof.
  intros K. set (z := fun i => if Nat.ltb i k then x i else 0).
  assert (Z1 : forall i, (i < k)%nat -> z i = x i) by (intros i I; unfold z; destruct (Nat.ltb_spec i k); [reflexivity|lia]).
  assert (Z0 : forall i, (k <= i)%nat -> z i = 0) by (intros i I; unfold z; destruct (Nat.ltb_spec i k); [lia|reflexivity]).
  pose proof (full z) as F. rewrite (@sum_tail (fun i => a i i * (z i * z i)) k n K) in F by (intros i I; rewrite Z0 by lia; ring).
  rewrite (@sum_tail (fun i => sum (fun j => a i j * (z i * z j)) n) k n K) in F by (intros i I; rewrite Z0 by lia; rewrite (sum_ext _ (fun _ => 0)) by (intros; ring); apply sum_zero).
  rewrite (sum_ext (fun i => a i i * (z i * z i)) (fun i => a i i * (x i * x i))) in F by (intros i I; rewrite Z1 by exact I; reflexivity).
  rewrite (sum_ext (fun i => sum (fun j => a i j * (z i * z j)) n) (fun i => sum (fun j => a i j * (x i * x j)) k)) in F; [exact F|].
  intros i I. rewrite (@sum_tail (fun j => a i j * (z i * z j)) k n K) by (intros j J; rewrite (Z0 j) by lia; ring).
  apply sum_ext. intros j J. rewrite !Z1 by assumption. reflexivity.
Qed.
Hypothesis asym : forall i j, a i j = a j i.
Hypothesis apos : forall i, (i < n)%nat -> 0 < a i i.
Hypothesis lam0 : 0 < lam.
Lemma mean_entry i j : (i < n)%nat -> (j < n)%nat -> Rabs (a i j) <= sqrt (a i i) * sqrt (a j j).
Proof.
  intros I J. pose proof (apos i I) as AI. pose proof (apos j J) as AJ. destruct (Nat.eq_dec i j) as [<-|N]; [rewrite sqrt_sqrt by lra; rewrite Rabs_right; lra|].
  set (u := sqrt (a i i)). set (v := sqrt (a j j)). assert (U : u * u = a i i) by (apply sqrt_sqrt; lra). assert (V : v * v = a j j) by (apply sqrt_sqrt; lra).
  assert (U0 : 0 < u) by now apply sqrt_lt_R0. assert (V0 : 0 < v) by now apply sqrt_lt_R0.
  assert (Q : forall e, e * e = 1 -> 0 <= 2 * (u * u * (v * v)) + 2 * (e * (a i j * (u * v)))).
  { intros e EE. set (x := fun m => if Nat.eqb m i then v else if Nat.eqb m j then e * u else 0).
    assert (Xi : x i = v) by (unfold x; now rewrite Nat.eqb_refl). assert (Xj : x j = e * u) by (unfold x; destruct (Nat.eqb_spec j i); [congruence|]; now rewrite Nat.eqb_refl).
    assert (X0 : forall m, m <> i -> m <> j -> x m = 0) by (intros m M1 M2; unfold x; destruct (Nat.eqb_spec m i); [congruence|]; destruct (Nat.eqb_spec m j); [congruence|reflexivity]).
    pose proof (full x) as F. rewrite (@sum_two (fun m => a m m * (x m * x m)) i j n I J N) in F by (intros m M M1 M2; rewrite X0 by assumption; ring).
    rewrite (@sum_two (fun i => sum (fun j => a i j * (x i * x j)) n) i j n I J N) in F by (intros m M M1 M2; rewrite (sum_ext _ (fun _ => 0)) by (intros; rewrite (X0 m) by assumption; ring); apply sum_zero).
    rewrite (@sum_two (fun m => a i m * (x i * x m)) i j n I J N), (@sum_two (fun m => a j m * (x j * x m)) i j n I J N) in F by (intros m M M1 M2; rewrite (X0 m) by assumption; ring).
    rewrite Xi, Xj, (asym j i), <- U, <- V in F. replace (e * u * (e * u)) with (u * u) in F by (transitivity (e * e * (u * u)); [rewrite EE; ring|ring]).
    assert (P : 0 <= u * u * (v * v)) by (apply Rmult_le_pos; apply Rle_0_sqr). assert (0 <= lam * (u * u * (v * v))) by (apply Rmult_le_pos; lra). lra. }
  pose proof (Q 1 ltac:(ring)) as Q1. pose proof (Q (-1) ltac:(ring)) as Q2. assert (P : 0 < u * v) by now apply Rmult_lt_0_compat.
  apply Rabs_le. split; apply Rmult_le_reg_r with (u * v); try exact P; lra.
Qed.
End Nat.
