(** The cross covariance of the unscented update, and scalar bounds. *)
From Coq Require Import Reals Lra Psatz List.
From Verif Require Import SpecFloatOps SpecLdltFloat ProofStrapdownFloat ProofUkfFloat.
Open Scope R_scope.

Section Cross.
Context {I : Type}.
Variable r : R -> R.
Hypothesis Hr : rel_ok r.
Variables (W : I -> R) (s : list I).
Hypothesis short : INR (length s) <= 1000000.
Hypothesis W0 : forall i, 0 <= W i.
Hypothesis W1 : wt W s = 1.
Notation mn := (mn W s). Notation mnf := (mnf r W s). Notation sc := (sc W s). Notation me := (me W s).
Lemma cross_dist a x y : let b := mn y in let db := me y in
  Rabs (scf r W s 0 a x (mnf y) y - sc a x b y) <= G s 4 * (sqrt (sc a x a x) * sqrt (sc b y b y + db * db)) + Rabs (mn x - a) * db.
Proof.
  intros b db. pose proof (mean_err r Hr W s short y) as Ey. fold b in Ey. fold db in Ey.
  pose proof (scat_err r Hr W s short 0 a x (mnf y) y) as E. rewrite Rplus_0_l, Rabs_R0, Rplus_0_l in E.
  assert (Sy : sc (mnf y) y (mnf y) y <= sc b y b y + db * db).
  { pose proof (sc_shift W s (mnf y) y (mnf y) y) as K. fold b in K. rewrite W1 in K. rewrite K. pose proof (sqc (mnf y - b)). pose proof (Rabs_pos (mnf y - b)). nra. }
  assert (L : lsum (fun i => Rabs (W i * (x i - a) * (y i - mnf y))) s <= sqrt (sc a x a x) * sqrt (sc b y b y + db * db)).
  { rewrite (lsum_ext _ (fun i => W i * (Rabs (x i - a) * Rabs (y i - mnf y)))) by (intros; rewrite !Rabs_mult, (Rabs_pos_eq (W i)) by apply W0; ring).
    eapply Rle_trans; [now apply cs_w_sqrt|]. apply Rmult_le_compat; try apply sqrt_pos; apply sqrt_le_1_alt.
    - unfold sc. apply lsum_le. intros. lra.
    - eapply Rle_trans; [|exact Sy]. unfold sc. apply lsum_le. intros. lra. }
  pose proof (sc_shift W s a x (mnf y) y) as S1. pose proof (sc_shift W s a x b y) as S2. fold b in S1, S2. rewrite W1 in S1, S2.
  replace (scf r W s 0 a x (mnf y) y - sc a x b y) with ((scf r W s 0 a x (mnf y) y - sc a x (mnf y) y) + (a - mn x) * (mnf y - b)) by (rewrite S1, S2; ring).
  eapply Rle_trans; [apply Rabs_triang|]. apply Rplus_le_compat.
  - eapply Rle_trans; [exact E|]. apply Rmult_le_compat_l; [apply G_ge0|exact L].
  - rewrite Rabs_mult, (Rabs_minus_sym a). apply Rmult_le_compat_l; [apply Rabs_pos|exact Ey].
Qed.
End Cross.

(** The gain, entry by entry. *)
Lemma tri a b c e f : Rabs (a - b) <= e -> Rabs (b - c) <= f -> Rabs (a - c) <= e + f.
Proof. intros A B. replace (a - c) with ((a - b) + (b - c)) by ring. eapply Rle_trans; [apply Rabs_triang|]. lra. Qed.
Lemma half_inv e s x xs : 0 < s -> e < s -> Rabs (x - xs) <= e / (s * s) -> Rabs xs <= / s -> Rabs x <= 2 / s.
Proof.
  intros S E A B. replace x with ((x - xs) + xs) by ring. eapply Rle_trans; [apply Rabs_triang|]. assert (I : 0 < / s) by now apply Rinv_0_lt_compat.
  assert (e * / s <= 1) by (apply Rle_trans with (s * / s); [apply Rmult_le_compat_r; lra|right; field; lra]).
  assert (e / (s * s) <= / s). { replace (e / (s * s)) with (e * / s * / s) by (field; lra). rewrite <- (Rmult_1_l (/ s)) at 3. apply Rmult_le_compat_r; lra. }
  unfold Rdiv in *. lra.
Qed.
