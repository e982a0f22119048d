(** The norm of IEEE doubles is the rounded norm. *)
From Coq Require Import Reals ZArith List Bool Lia Arith Lra.
From Flocq Require Import Core IEEE754.BinarySingleNaN IEEE754.Binary IEEE754.Bits.
From Verif Require Import Base ModelDate ModelGuardFloat ModelNlsIeee SpecNlsIeee ProofNlsIeee ProofNlsIeee2.
Import ListNotations.
Local Open Scope nat_scope.

Notation B2R64 := (Binary.B2R 53 1024).
Lemma ovf_fin x s : B2FF 53 1024 x = Binary.binary_overflow 53 1024 mode_NE s -> fin64 x = false.
Proof. destruct x; cbn; intros H; inversion H; auto. Qed.
Lemma mul_fin x y : fin64 (mul64 x y) = true -> fin64 x = true /\ fin64 y = true /\ B2R64 (mul64 x y) = rnd64 (B2R64 x * B2R64 y).
Proof.
  intros F. pose proof (Binary.Bmult_correct 53 1024 eq_refl eq_refl binop_nan_pl64 mode_NE x y) as H.
  change (Binary.Bmult 53 1024 eq_refl eq_refl binop_nan_pl64 mode_NE x y) with (mul64 x y) in H. destruct (Rlt_bool _ _).
  - destruct H as (H1 & H2 & _). rewrite F in H2. symmetry in H2. apply andb_true_iff in H2. destruct H2. repeat split; auto.
  - apply ovf_fin in H. congruence.
Qed.
Lemma add_fin x y : fin64 (add64 x y) = true -> fin64 x = true /\ fin64 y = true /\ B2R64 (add64 x y) = rnd64 (B2R64 x + B2R64 y).
Proof.
  intros F. assert (Fx : fin64 x = true) by (destruct (fin64 x) eqn:E; [reflexivity|now rewrite (add_inf x y E) in F]).
  assert (Fy : fin64 y = true) by (destruct (fin64 y) eqn:E; [reflexivity|now rewrite (add_inf_r x y E) in F]).
  split; [exact Fx|]. split; [exact Fy|].
  pose proof (Binary.Bplus_correct 53 1024 eq_refl eq_refl binop_nan_pl64 mode_NE x y Fx Fy) as H.
  change (Binary.Bplus 53 1024 eq_refl eq_refl binop_nan_pl64 mode_NE x y) with (add64 x y) in H. destruct (Rlt_bool _ _).
  - apply H.
  - destruct H as (H & _). apply ovf_fin in H. congruence.
Qed.
Lemma fold_fin l : forall x, fin64 (fold_left add64 l x) = true -> fin64 x = true /\ all_finite l /\
  B2R64 (fold_left add64 l x) = fold_left (fun s t => rnd64 (s + t)) (map B2R64 l) (B2R64 x).
Proof.
  induction l as [|y l IH]; intros x F; cbn in *; [split; [exact F|split; [intros z []|reflexivity]]|].
  destruct (IH _ F) as (F1 & F2 & E). destruct (add_fin x y F1) as (Fx & Fy & E'). split; [exact Fx|]. split.
  - intros z [<-|I]; auto.
  - rewrite E, E'. reflexivity.
Qed.
Lemma sum_fin l : fin64 (sum64 l) = true -> all_finite l /\ B2R64 (sum64 l) = rounded_sum (map B2R64 l).
Proof.
  destruct l as [|x l]; cbn; [intros _; split; [intros z []|reflexivity]|]. intros F. destruct (fold_fin l x F) as (Fx & Fl & E).
  split; [intros z [<-|I]; auto|exact E].
Qed.
Lemma norm_fin v : fin64 (norm64 v) = true -> all_finite v /\
  B2R64 (norm64 v) = rnd64 (sqrt (rounded_sum (map (fun x => rnd64 (B2R64 x * B2R64 x)) v))).
Proof.
  intros F. destruct (Binary.Bsqrt_correct 53 1024 eq_refl eq_refl unop_nan_pl64 mode_NE (dot64 v v)) as (E & H & _).
  change (Binary.Bsqrt 53 1024 eq_refl eq_refl unop_nan_pl64 mode_NE (dot64 v v)) with (norm64 v) in *.
  assert (FD : fin64 (dot64 v v) = true) by (rewrite F in H; now destruct (dot64 v v)).
  destruct (sum_fin _ FD) as (A & S). fold (dot64 v v) in S.
  assert (Q : forall x, In x v -> fin64 (mul64 x x) = true).
  { intros x I. apply A. apply in_map_iff. exists (x, x). split; [reflexivity|]. clear -I. induction v; [destruct I|]. cbn. destruct I as [->|I]; [now left|right; now apply IHv]. }
  split; [intros x I; now apply (mul_fin x x (Q x I))|]. rewrite E. unfold dot64 in *. rewrite S, map_map. unfold rnd64. f_equal. f_equal. f_equal.
  clear -Q. induction v as [|x v IH]; [reflexivity|]. cbn. f_equal; [apply (mul_fin x x), Q; now left|apply IH; intros y I; apply Q; now right].
Qed.
