(** NaN and infinities in the nonlinear least-squares loop. *)
From Coq Require Import ZArith List Bool Lia Arith.
From Flocq Require Import Core IEEE754.BinarySingleNaN IEEE754.Binary IEEE754.Bits.
From Verif Require Import Base ModelDate ModelGuardFloat ModelNlsIeee SpecNlsIeee.
Import ListNotations.
Local Open Scope nat_scope.
Local Open Scope outcome_scope.

Lemma add_nan_l x y : nan64 x = true -> nan64 (add64 x y) = true.
Proof. destruct x; try discriminate. intros _. unfold add64, b64_plus, Binary.Bplus. rewrite is_nan_BSN2B. now destruct y. Qed.
Lemma add_nan_r x y : nan64 y = true -> nan64 (add64 x y) = true.
Proof. destruct y; try discriminate. intros _. unfold add64, b64_plus, Binary.Bplus. rewrite is_nan_BSN2B. now destruct x. Qed.
Lemma mul_nan_l x y : nan64 x = true -> nan64 (mul64 x y) = true.
Proof. destruct x; try discriminate. intros _. unfold mul64, b64_mult, Binary.Bmult. rewrite is_nan_BSN2B. now destruct y. Qed.
Lemma mul_nan_r x y : nan64 y = true -> nan64 (mul64 x y) = true.
Proof. destruct y; try discriminate. intros _. unfold mul64, b64_mult, Binary.Bmult. rewrite is_nan_BSN2B. now destruct x. Qed.
Lemma sub_nan_l x y : nan64 x = true -> nan64 (sub64 x y) = true.
Proof. destruct x; try discriminate. intros _. unfold sub64, b64_minus, Binary.Bminus. rewrite is_nan_BSN2B. now destruct y. Qed.
Lemma sub_nan_r x y : nan64 y = true -> nan64 (sub64 x y) = true.
Proof. destruct y; try discriminate. intros _. unfold sub64, b64_minus, Binary.Bminus. rewrite is_nan_BSN2B. now destruct x. Qed.
Lemma sqrt_nan x : nan64 x = true -> nan64 (b64_sqrt mode_NE x) = true.
Proof. destruct x; try discriminate. intros _. unfold b64_sqrt, Binary.Bsqrt. now rewrite is_nan_BSN2B. Qed.
Lemma fin_not_nan x : fin64 x = true -> nan64 x = false.
Proof. now destruct x. Qed.
(** A sum with a non-finite term is not finite, and the difference to that term
    is NaN. *)
Lemma add_inf x d : fin64 x = false -> fin64 (add64 x d) = false.
Proof.
  destruct x as [s|s|s pl H|s m e H]; try discriminate; intros _; unfold add64, b64_plus, Binary.Bplus; rewrite is_finite_BSN2B.
  - destruct d as [s'|s'|s' pl' H'|s' m' e' H']; try reflexivity. now destruct s, s'.
  - now destruct d.
Qed.
Lemma add_inf_r x d : fin64 d = false -> fin64 (add64 x d) = false.
Proof.
  destruct d as [s|s|s pl H|s m e H]; try discriminate; intros _; unfold add64, b64_plus, Binary.Bplus; rewrite is_finite_BSN2B.
  - destruct x as [s'|s'|s' pl' H'|s' m' e' H']; try reflexivity. now destruct s, s'.
  - now destruct x.
Qed.
Lemma back_nan x d : fin64 x = false -> nan64 (sub64 (add64 x d) x) = true.
Proof.
  intros H. destruct (nan64 x) eqn:N; [now apply sub_nan_r|].
  destruct x as [s|s|s pl Hp|s m e Hm]; try discriminate.
  destruct d as [s'|s'|s' pl' H'|s' m' e' H'].
  - destruct s; reflexivity.
  - destruct s, s'; reflexivity.
  - apply sub_nan_l. apply add_nan_r. reflexivity.
  - destruct s; reflexivity.
Qed.
Lemma gt_nan x e : nan64 x = true -> gt64 x e = false.
Proof. unfold gt64. destruct x; try discriminate. now destruct e. Qed.
Lemma gt_nan_r x e : nan64 e = true -> gt64 x e = false.
Proof. unfold gt64. destruct e; try discriminate. now destruct x. Qed.

(** Sums. *)
Lemma fold_nan l : forall x, nan64 x = true \/ has nan64 l -> nan64 (fold_left add64 l x) = true.
Proof.
  induction l as [|y l IH]; intros x [H|(z & I & N)]; cbn.
  - exact H.
  - destruct I.
  - apply IH. left. now apply add_nan_l.
  - destruct I as [->|I]; [apply IH; left; now apply add_nan_r|apply IH; right; now exists z].
Qed.
Lemma sum_nan l : has nan64 l -> nan64 (sum64 l) = true.
Proof.
  intros (z & I & N). destruct l as [|x l]; [destruct I|]. cbn. apply fold_nan. destruct I as [->|I]; [now left|right; now exists z].
Qed.
Lemma norm_nan v : has nan64 v -> nan64 (norm64 v) = true.
Proof.
  intros (z & I & N). apply sqrt_nan, sum_nan. exists (mul64 z z). split; [|now apply mul_nan_l].
  apply in_map_iff. exists (z, z). split; [reflexivity|]. clear N. induction v; [destruct I|]. cbn. destruct I as [->|I]; [now left|right; now apply IHv].
Qed.

(** Entrywise operations. *)
Lemma zip_ret f a b c : zip64 f a b = Ret c -> length c = length a /\ length b = length a /\
  forall i z, nth i c z = f (nth i a z) (nth i b z) \/ length a <= i.
Proof.
  unfold zip64. destruct (Nat.eqb_spec (length a) (length b)) as [E|]; [|discriminate]. intros H. injection H as <-.
  split; [rewrite map_length, combine_length; lia|]. split; [lia|]. intros i z. destruct (le_lt_dec (length a) i) as [L|L]; [now right|left].
  revert b E i L. induction a as [|x a IH]; intros b E i L; [cbn in L; lia|]. destruct b as [|y b]; [discriminate|]. destruct i as [|i]; [reflexivity|].
  cbn in *. apply IH; lia.
Qed.
Lemma has_nth P v z : has P v <-> exists i, i < length v /\ P (nth i v z) = true.
Proof.
  split.
  - intros (x & I & H). destruct (In_nth v x z I) as (i & L & E). exists i. split; [exact L|now rewrite E].
  - intros (i & L & H). exists (nth i v z). split; [now apply nth_In|exact H].
Qed.
Definition zero64 : binary64 := B754_zero 53 1024 false.
Lemma addv_inf a c x1 : addv64 a c = Ret x1 -> has inf64 a \/ has inf64 c -> has inf64 x1.
Proof.
  intros E H. destruct (zip_ret _ _ _ _ E) as (L1 & L2 & N). destruct H as [H|H]; apply (has_nth _ _ zero64) in H; destruct H as (i & L & H);
    apply (has_nth _ _ zero64); exists i; (split; [lia|]); destruct (N i zero64) as [->|]; try lia; unfold inf64 in *; apply negb_true_iff in H; apply negb_true_iff; [now apply add_inf|now apply add_inf_r].
Qed.
Lemma step_nan a c x1 res : addv64 a c = Ret x1 -> subv64 x1 a = Ret res -> has inf64 a \/ has nan64 c -> has nan64 res.
Proof.
  intros E E' H. destruct (zip_ret _ _ _ _ E) as (L1 & L2 & N). destruct (zip_ret _ _ _ _ E') as (L1' & L2' & N').
  destruct H as [H|H]; apply (has_nth _ _ zero64) in H; destruct H as (i & L & H); apply (has_nth _ _ zero64); exists i; (split; [lia|]);
    destruct (N' i zero64) as [->|]; try lia; destruct (N i zero64) as [->|]; try lia.
  - apply back_nan. unfold inf64 in H. now apply negb_true_iff in H.
  - apply sub_nan_l. now apply add_nan_r.
Qed.
