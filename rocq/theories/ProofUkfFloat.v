(** Rounding errors of weighted means and of weighted scatter. *)
From Flocq Require Core.Raux.
From Coq Require Import Reals List Arith Lra Lia Psatz.
From Verif Require Import Base SpecFloatOps SpecLdltFloat ProofStrapdownFloat ProofLdlt8.
Open Scope R_scope.

Section Lists.
Context {I : Type}.
Fixpoint lsum (f : I -> R) (s : list I) : R := match s with nil => 0 | i :: s => f i + lsum f s end.
Fixpoint acc (r : R -> R) (c : R) (t : I -> R) (s : list I) : R := match s with nil => c | i :: s => acc r (r (c + t i)) t s end.

Lemma lsum_le f g s : (forall i, f i <= g i) -> lsum f s <= lsum g s.
Proof. intros H. induction s; cbn; [lra|]. pose proof (H a). lra. Qed.
Lemma lsum_ext f g s : (forall i, f i = g i) -> lsum f s = lsum g s.
Proof. intros H. induction s; cbn; [lra|]. rewrite H, IHs. lra. Qed.
Lemma lsum_abs f s : Rabs (lsum f s) <= lsum (fun i => Rabs (f i)) s.
Proof. induction s; cbn; [rewrite Rabs_R0; lra|]. eapply Rle_trans; [apply Rabs_triang|]. lra. Qed.
Lemma lsum_ge0 f s : (forall i, 0 <= f i) -> 0 <= lsum f s.
Proof. intros H. induction s; cbn; [lra|]. pose proof (H a). lra. Qed.
Lemma lsum_plus f g s : lsum (fun i => f i + g i) s = lsum f s + lsum g s.
Proof. induction s; cbn; [lra|]. rewrite IHs. lra. Qed.
Lemma lsum_minus f g s : lsum (fun i => f i - g i) s = lsum f s - lsum g s.
Proof. induction s; cbn; [lra|]. rewrite IHs. lra. Qed.
Lemma lsum_scal c f s : lsum (fun i => c * f i) s = c * lsum f s.
Proof. induction s; cbn; [lra|]. rewrite IHs. lra. Qed.

Definition gam (m : nat) : R := (1 + u64) ^ m - 1.
Lemma gam_ge0 m : 0 <= gam m.
Proof. unfold gam. pose proof u64_bounds. pose proof (pow_R1_Rle (1 + u64) m ltac:(lra)). lra. Qed.
Lemma gam_plus m p : gam (m + p) = gam m * (1 + gam p) + gam p.
Proof. unfold gam. rewrite pow_add. ring. Qed.
Lemma gam_small m : INR m <= 2000000 -> gam m <= 101 / 100 * (INR m * u64).
Proof.
  unfold gam. pose proof u64_bounds as U. induction m as [|m IH]; [cbn; lra|]. rewrite S_INR. intros H. specialize (IH ltac:(lra)). cbn [pow].
  pose proof (pos_INR m) as M. assert (INR m * u64 <= / 1000) by nra. nra.
Qed.

Section Acc.
Variable r : R -> R.
Hypothesis Hr : rel_ok r.
Lemma acc_err t s : forall c, Rabs (acc r c t s - (c + lsum t s)) <= gam (length s) * (Rabs c + lsum (fun i => Rabs (t i)) s).
Proof.
  induction s as [|i s IH]; intros c; cbn [acc lsum length].
  - unfold gam. cbn [pow]. replace (c - (c + 0)) with 0 by ring. rewrite Rabs_R0. lra.
  - specialize (IH (r (c + t i))). pose proof (Hr (c + t i)) as E. pose proof (Rabs_triang c (t i)) as T. pose proof u64_bounds as U. pose proof (gam_ge0 (length s)) as G.
    set (S := lsum t s) in *. set (A := lsum (fun i => Rabs (t i)) s) in *. assert (A0 : 0 <= A) by (apply lsum_ge0; intros; apply Rabs_pos).
    change (Datatypes.S (length s)) with (1 + length s)%nat. rewrite (Nat.add_comm 1), gam_plus. replace (gam 1) with u64 by (unfold gam; cbn; ring).
    assert (C1 : Rabs (r (c + t i)) <= (1 + u64) * (Rabs c + Rabs (t i))).
    { replace (r (c + t i)) with ((r (c + t i) - (c + t i)) + (c + t i)) by ring. eapply Rle_trans; [apply Rabs_triang|]. nra. }
    replace (acc r (r (c + t i)) t s - (c + (t i + S))) with ((acc r (r (c + t i)) t s - (r (c + t i) + S)) + (r (c + t i) - (c + t i))) by ring.
    eapply Rle_trans; [apply Rabs_triang|].
    assert (gam (length s) * (Rabs (r (c + t i)) + A) <= gam (length s) * ((1 + u64) * (Rabs c + Rabs (t i)) + A)) by (apply Rmult_le_compat_l; lra).
    assert (u64 * Rabs (c + t i) <= u64 * (Rabs c + Rabs (t i))) by (apply Rmult_le_compat_l; lra).
    assert (0 <= gam (length s) * u64 * A) by (apply Rmult_le_pos; [apply Rmult_le_pos|]; lra).
    assert (0 <= u64 * A) by (apply Rmult_le_pos; lra). lra.
Qed.
Lemma acc_err2 tf t p c s : (forall i, Rabs (tf i - t i) <= gam p * Rabs (t i)) ->
  Rabs (acc r c tf s - (c + lsum t s)) <= gam (length s + p) * (Rabs c + lsum (fun i => Rabs (t i)) s).
Proof.
  intros H. pose proof (acc_err tf s c) as E. pose proof (gam_ge0 (length s)) as G. pose proof (gam_ge0 p) as P. rewrite gam_plus.
  assert (S1 : Rabs (lsum tf s - lsum t s) <= gam p * lsum (fun i => Rabs (t i)) s).
  { rewrite <- lsum_minus, <- lsum_scal. eapply Rle_trans; [apply lsum_abs|]. now apply lsum_le. }
  assert (S2 : lsum (fun i => Rabs (tf i)) s <= (1 + gam p) * lsum (fun i => Rabs (t i)) s).
  { rewrite <- lsum_scal. apply lsum_le. intros i. replace (tf i) with ((tf i - t i) + t i) by ring. eapply Rle_trans; [apply Rabs_triang|]. pose proof (H i). lra. }
  set (A := lsum (fun i => Rabs (t i)) s) in *. assert (A0 : 0 <= A) by (apply lsum_ge0; intros; apply Rabs_pos). pose proof (Rabs_pos c).
  replace (acc r c tf s - (c + lsum t s)) with ((acc r c tf s - (c + lsum tf s)) + (lsum tf s - lsum t s)) by ring. eapply Rle_trans; [apply Rabs_triang|].
  assert (gam (length s) * (Rabs c + lsum (fun i => Rabs (tf i)) s) <= gam (length s) * (Rabs c + (1 + gam p) * A)) by (apply Rmult_le_compat_l; lra).
  assert (0 <= gam (length s) * gam p * Rabs c) by (apply Rmult_le_pos; [apply Rmult_le_pos|]; lra).
  assert (0 <= gam p * Rabs c) by (apply Rmult_le_pos; lra). nra.
Qed.

Lemma fac x : exists d, r x = x * (1 + d) /\ Rabs d <= u64.
Proof.
  pose proof (Hr x) as E. destruct (Req_dec x 0) as [->|N].
  - exists 0. rewrite Rabs_R0 in *. pose proof u64_bounds. split; [|lra]. rewrite Rmult_0_r in E. pose proof (Rabs_pos (r 0 - 0)). assert (r 0 - 0 = 0); [|lra].
    destruct (Req_dec (r 0 - 0) 0); [assumption|]. pose proof (Rabs_pos_lt _ H1). lra.
  - exists ((r x - x) / x). split; [field; exact N|]. unfold Rdiv. rewrite Rabs_mult, Rabs_inv. pose proof (Rabs_pos_lt x N).
    apply (Rmult_le_reg_r (Rabs x)); [assumption|]. rewrite Rmult_assoc, Rinv_l by lra. lra.
Qed.
Lemma fac_gam m d : Rabs d <= u64 -> forall p, Rabs (p - 1) <= gam m -> Rabs (p * (1 + d) - 1) <= gam (m + 1).
Proof.
  intros D p P. rewrite gam_plus. replace (gam 1) with u64 by (unfold gam; cbn; ring). replace (p * (1 + d) - 1) with ((p - 1) * (1 + d) + d) by ring. eapply Rle_trans; [apply Rabs_triang|]. rewrite Rabs_mult.
  assert (Rabs (1 + d) <= 1 + u64). { eapply Rle_trans; [apply Rabs_triang|]. rewrite Rabs_R1. lra. }
  apply Rplus_le_compat; [|assumption]. apply Rmult_le_compat; try apply Rabs_pos; assumption.
Qed.
Lemma gam0 : Rabs (1 - 1) <= gam 0.
Proof. unfold gam. cbn. replace (1 - 1) with 0 by ring. rewrite Rabs_R0. lra. Qed.
Lemma term1 w y : Rabs (r (w * y) - w * y) <= gam 1 * Rabs (w * y).
Proof. replace (gam 1) with u64 by (unfold gam; cbn; ring). apply Hr. Qed.
Lemma term4 w x a y b : Rabs (r (r (w * r (x - a)) * r (y - b)) - w * (x - a) * (y - b)) <= gam 4 * Rabs (w * (x - a) * (y - b)).
Proof.
  destruct (fac (x - a)) as (d1 & -> & D1). destruct (fac (y - b)) as (d2 & -> & D2). destruct (fac (w * ((x - a) * (1 + d1)))) as (d3 & -> & D3).
  destruct (fac (w * ((x - a) * (1 + d1)) * (1 + d3) * ((y - b) * (1 + d2)))) as (d4 & -> & D4).
  replace (w * ((x - a) * (1 + d1)) * (1 + d3) * ((y - b) * (1 + d2)) * (1 + d4) - w * (x - a) * (y - b)) with ((1 * (1 + d1) * (1 + d2) * (1 + d3) * (1 + d4) - 1) * (w * (x - a) * (y - b))) by ring.
  rewrite Rabs_mult. apply Rmult_le_compat_r; [apply Rabs_pos|]. change 4%nat with (0 + 1 + 1 + 1 + 1)%nat. repeat (apply fac_gam; [assumption|]). apply gam0.
Qed.

(** ** Means and scatter *)
Variables (W : I -> R) (s : list I).
Definition G (p : nat) : R := 101 / 100 * ((INR (length s) + INR p) * u64).
Hypothesis short : INR (length s) <= 1000000.
Lemma gamG p : INR p <= 10 -> gam (length s + p) <= G p.
Proof. intros P. unfold G. rewrite <- plus_INR. apply gam_small. rewrite plus_INR. lra. Qed.
Lemma G_ge0 p : 0 <= G p.
Proof. unfold G. pose proof (pos_INR (length s)). pose proof (pos_INR p). pose proof u64_bounds. nra. Qed.

Definition mn (y : I -> R) : R := lsum (fun i => W i * y i) s.
Definition mnf (y : I -> R) : R := acc r 0 (fun i => r (W i * y i)) s.
Definition sc (a : R) (x : I -> R) (b : R) (y : I -> R) : R := lsum (fun i => W i * (x i - a) * (y i - b)) s.
Definition scf (c a : R) (x : I -> R) (b : R) (y : I -> R) : R := acc r c (fun i => r (r (W i * r (x i - a)) * r (y i - b))) s.
Definition me (y : I -> R) : R := G 1 * lsum (fun i => Rabs (W i * y i)) s.
Lemma me_ge0 y : 0 <= me y.
Proof. apply Rmult_le_pos; [apply G_ge0|]. apply lsum_ge0. intros. apply Rabs_pos. Qed.
Lemma mean_err y : Rabs (mnf y - mn y) <= me y.
Proof.
  unfold mnf, mn, me. pose proof (acc_err2 (fun i => r (W i * y i)) (fun i => W i * y i) 1 0 s (fun i => term1 (W i) (y i))) as E. rewrite Rplus_0_l, Rabs_R0, Rplus_0_l in E.
  eapply Rle_trans; [exact E|]. apply Rmult_le_compat_r; [apply lsum_ge0; intros; apply Rabs_pos|]. apply gamG. cbn. lra.
Qed.
Lemma scat_err c a x b y : Rabs (scf c a x b y - (c + sc a x b y)) <= G 4 * (Rabs c + lsum (fun i => Rabs (W i * (x i - a) * (y i - b))) s).
Proof.
  unfold scf, sc. eapply Rle_trans; [apply (acc_err2 _ (fun i => W i * (x i - a) * (y i - b)) 4 c s (fun i => term4 (W i) (x i) a (y i) b))|].
  apply Rmult_le_compat_r; [|apply gamG; cbn; lra]. apply Rplus_le_le_0_compat; [apply Rabs_pos|]. apply lsum_ge0. intros. apply Rabs_pos.
Qed.

Definition wt : R := lsum W s.
Lemma sc_shift a x b y : sc a x b y = sc (mn x) x (mn y) y - (1 - wt) * ((a - mn x) * mn y + (b - mn y) * mn x) + wt * ((a - mn x) * (b - mn y)).
Proof.
  unfold sc, wt.
  rewrite (lsum_ext _ (fun i => (W i * (x i - mn x) * (y i - mn y) - (a - mn x) * (W i * y i)) - (b - mn y) * (W i * x i) + ((a - mn x) * mn y + (b - mn y) * mn x + (a - mn x) * (b - mn y)) * W i)) by (intros; ring).
  rewrite lsum_plus, !lsum_minus, !lsum_scal. change (lsum (fun i => W i * y i) s) with (mn y). change (lsum (fun i => W i * x i) s) with (mn x). ring.
Qed.

(** Any weights. *)
Lemma predict_any c x y : let a := mn x in let b := mn y in let da := me x in let db := me y in
  Rabs (scf c (mnf x) x (mnf y) y - (c + sc a x b y))
  <= G 4 * (Rabs c + lsum (fun i => Rabs (W i) * ((Rabs (x i - a) + da) * (Rabs (y i - b) + db))) s) + Rabs (1 - wt) * (da * Rabs b + db * Rabs a) + Rabs wt * (da * db).
Proof.
  intros a b da db. pose proof (mean_err x) as Ex. pose proof (mean_err y) as Ey. fold a in Ex. fold b in Ey. fold da in Ex. fold db in Ey.
  pose proof (scat_err c (mnf x) x (mnf y) y) as E. pose proof (sc_shift (mnf x) x (mnf y) y) as Sh. fold a b in Sh.
  assert (L : lsum (fun i => Rabs (W i * (x i - mnf x) * (y i - mnf y))) s <= lsum (fun i => Rabs (W i) * ((Rabs (x i - a) + da) * (Rabs (y i - b) + db))) s).
  { apply lsum_le. intros i. rewrite !Rabs_mult, Rmult_assoc. apply Rmult_le_compat_l; [apply Rabs_pos|]. apply Rmult_le_compat; try apply Rabs_pos.
    - replace (x i - mnf x) with ((x i - a) + - (mnf x - a)) by ring. eapply Rle_trans; [apply Rabs_triang|]. rewrite Rabs_Ropp. lra.
    - replace (y i - mnf y) with ((y i - b) + - (mnf y - b)) by ring. eapply Rle_trans; [apply Rabs_triang|]. rewrite Rabs_Ropp. lra. }
  replace (scf c (mnf x) x (mnf y) y - (c + sc a x b y)) with ((scf c (mnf x) x (mnf y) y - (c + sc (mnf x) x (mnf y) y)) + (- ((1 - wt) * ((mnf x - a) * b + (mnf y - b) * a)) + wt * ((mnf x - a) * (mnf y - b)))) by (rewrite Sh; ring).
  eapply Rle_trans; [apply Rabs_triang|]. rewrite Rplus_assoc. apply Rplus_le_compat.
  - eapply Rle_trans; [exact E|]. apply Rmult_le_compat_l; [apply G_ge0|]. lra.
  - eapply Rle_trans; [apply Rabs_triang|]. rewrite Rabs_Ropp, !Rabs_mult. apply Rplus_le_compat.
    + apply Rmult_le_compat_l; [apply Rabs_pos|]. eapply Rle_trans; [apply Rabs_triang|]. rewrite !Rabs_mult. apply Rplus_le_compat; apply Rmult_le_compat_r; try apply Rabs_pos; assumption.
    + apply Rmult_le_compat_l; [apply Rabs_pos|]. apply Rmult_le_compat; try apply Rabs_pos; assumption.
Qed.

(** Weights of a distribution. *)
Hypothesis W0 : forall i, 0 <= W i.
Lemma sqc x : Rabs x * Rabs x = x * x.
Proof. rewrite <- Rabs_mult. apply Rabs_pos_eq. nra. Qed.
Lemma cs_w (f g : I -> R) : lsum (fun i => W i * (Rabs (f i) * Rabs (g i))) s * lsum (fun i => W i * (Rabs (f i) * Rabs (g i))) s
  <= lsum (fun i => W i * (f i * f i)) s * lsum (fun i => W i * (g i * g i)) s.
Proof.
  clear short. set (A := lsum (fun i => W i * (f i * f i)) s). set (B := lsum (fun i => W i * (g i * g i)) s). set (C := lsum (fun i => W i * (Rabs (f i) * Rabs (g i))) s).
  assert (A0 : 0 <= A) by (apply lsum_ge0; intros; apply Rmult_le_pos; [apply W0|apply Rle_0_sqr]).
  assert (Q : forall l, 0 <= A * (l * l) - 2 * l * C + B).
  { intros l. replace (A * (l * l) - 2 * l * C + B) with (lsum (fun i => W i * ((l * Rabs (f i) - Rabs (g i)) * (l * Rabs (f i) - Rabs (g i)))) s).
    - apply lsum_ge0. intros. apply Rmult_le_pos; [apply W0|apply Rle_0_sqr].
    - rewrite (lsum_ext _ (fun i => ((l * l) * (W i * (f i * f i)) - (2 * l) * (W i * (Rabs (f i) * Rabs (g i)))) + W i * (g i * g i))).
      + rewrite lsum_plus, lsum_minus, !lsum_scal. unfold A, B, C. ring.
      + intros i. rewrite <- (sqc (f i)), <- (sqc (g i)). ring. }
  destruct (Req_dec A 0) as [Z|N].
  - rewrite Z in *. rewrite Rmult_0_l. assert (C = 0); [|nra]. assert (B0 : 0 <= B) by (pose proof (Q 0); lra).
    destruct (Req_dec C 0) as [|NC]; [assumption|]. pose proof (Q ((B + 1) / (2 * C))) as H. replace (2 * ((B + 1) / (2 * C)) * C) with (B + 1) in H by (field; lra). lra.
  - pose proof (Q (C / A)) as H. assert (0 < A) by lra. apply (Rmult_le_compat_l A) in H; [|lra].
    replace (A * (A * (C / A * (C / A)) - 2 * (C / A) * C + B)) with (A * B - C * C) in H by (field; lra). lra.
Qed.
Lemma cs_w_sqrt (f g : I -> R) : lsum (fun i => W i * (Rabs (f i) * Rabs (g i))) s
  <= sqrt (lsum (fun i => W i * (f i * f i)) s) * sqrt (lsum (fun i => W i * (g i * g i)) s).
Proof.
  assert (A0 : 0 <= lsum (fun i => W i * (f i * f i)) s) by (apply lsum_ge0; intros; apply Rmult_le_pos; [apply W0|apply Rle_0_sqr]).
  rewrite <- sqrt_mult_alt by exact A0. rewrite <- (sqrt_square (lsum (fun i => W i * (Rabs (f i) * Rabs (g i))) s)).
  2: { apply lsum_ge0. intros. apply Rmult_le_pos; [apply W0|]. apply Rmult_le_pos; apply Rabs_pos. }
  apply sqrt_le_1_alt. apply cs_w.
Qed.
Hypothesis W1 : wt = 1.
Lemma scat_dist c x y : let a := mn x in let b := mn y in let da := me x in let db := me y in
  Rabs (scf c (mnf x) x (mnf y) y - (c + sc (mnf x) x (mnf y) y)) <= G 4 * (Rabs c + sqrt (sc a x a x + da * da) * sqrt (sc b y b y + db * db)).
Proof.
  intros a b da db. pose proof (mean_err x) as Ex. pose proof (mean_err y) as Ey. fold a in Ex. fold b in Ey. fold da in Ex. fold db in Ey.
  pose proof (scat_err c (mnf x) x (mnf y) y) as E.
  assert (Sx : sc (mnf x) x (mnf x) x <= sc a x a x + da * da).
  { pose proof (sc_shift (mnf x) x (mnf x) x) as K. fold a in K. rewrite W1 in K. rewrite K. pose proof (sqc (mnf x - a)). pose proof (Rabs_pos (mnf x - a)). nra. }
  assert (Sy : sc (mnf y) y (mnf y) y <= sc b y b y + db * db).
  { pose proof (sc_shift (mnf y) y (mnf y) y) as K. fold b in K. rewrite W1 in K. rewrite K. pose proof (sqc (mnf y - b)). pose proof (Rabs_pos (mnf y - b)). nra. }
  assert (L : lsum (fun i => Rabs (W i * (x i - mnf x) * (y i - mnf y))) s <= sqrt (sc a x a x + da * da) * sqrt (sc b y b y + db * db)).
  { rewrite (lsum_ext _ (fun i => W i * (Rabs (x i - mnf x) * Rabs (y i - mnf y)))) by (intros; rewrite !Rabs_mult, (Rabs_pos_eq (W i)) by apply W0; ring).
    eapply Rle_trans; [apply cs_w_sqrt|]. apply Rmult_le_compat; try apply sqrt_pos; apply sqrt_le_1_alt.
    - eapply Rle_trans; [|exact Sx]. unfold sc. apply lsum_le. intros. lra.
    - eapply Rle_trans; [|exact Sy]. unfold sc. apply lsum_le. intros. lra. }
  eapply Rle_trans; [exact E|]. apply Rmult_le_compat_l; [apply G_ge0|]. lra.
Qed.
Lemma predict_dist c x y : let a := mn x in let b := mn y in let da := me x in let db := me y in
  Rabs (scf c (mnf x) x (mnf y) y - (c + sc a x b y))
  <= G 4 * (Rabs c + sqrt (sc a x a x + da * da) * sqrt (sc b y b y + db * db)) + da * db.
Proof.
  intros a b da db. pose proof (mean_err x) as Ex. pose proof (mean_err y) as Ey. fold a in Ex. fold b in Ey. fold da in Ex. fold db in Ey.
  pose proof (sc_shift (mnf x) x (mnf y) y) as Sh. fold a b in Sh. rewrite W1 in Sh.
  replace (scf c (mnf x) x (mnf y) y - (c + sc a x b y)) with ((scf c (mnf x) x (mnf y) y - (c + sc (mnf x) x (mnf y) y)) + (mnf x - a) * (mnf y - b)) by (rewrite Sh; ring).
  eapply Rle_trans; [apply Rabs_triang|]. apply Rplus_le_compat; [apply scat_dist|].
  rewrite Rabs_mult. apply Rmult_le_compat; try apply Rabs_pos; assumption.
Qed.
Lemma asym_dist c x y : let a := mn x in let b := mn y in let da := me x in let db := me y in
  Rabs (scf c (mnf x) x (mnf y) y - scf c (mnf y) y (mnf x) x)
  <= 2 * G 4 * (Rabs c + sqrt (sc a x a x + da * da) * sqrt (sc b y b y + db * db)).
Proof.
  intros a b da db. pose proof (scat_dist c x y) as E1. pose proof (scat_dist c y x) as E2. cbv zeta in E1, E2. fold a b da db in E1, E2.
  assert (Sw : sc (mnf y) y (mnf x) x = sc (mnf x) x (mnf y) y) by (unfold sc; apply lsum_ext; intros; ring). rewrite Sw in E2.
  replace (scf c (mnf x) x (mnf y) y - scf c (mnf y) y (mnf x) x) with ((scf c (mnf x) x (mnf y) y - (c + sc (mnf x) x (mnf y) y)) + - (scf c (mnf y) y (mnf x) x - (c + sc (mnf x) x (mnf y) y))) by ring.
  eapply Rle_trans; [apply Rabs_triang|]. rewrite Rabs_Ropp. lra.
Qed.
Lemma r_sign x : 0 <= x -> 0 <= r x.
Proof. intros X. pose proof (Hr x) as H. rewrite (Rabs_pos_eq x) in H by assumption. pose proof u64_bounds. apply Flocq.Core.Raux.Rabs_le_inv in H. nra. Qed.
Lemma sq_sign w x : 0 <= w -> 0 <= r (r (w * x) * x).
Proof.
  intros X. apply r_sign. destruct (fac (w * x)) as (d & -> & D). pose proof u64_bounds. apply Flocq.Core.Raux.Rabs_le_inv in D.
  replace (w * x * (1 + d) * x) with (w * (x * x) * (1 + d)) by ring. apply Rmult_le_pos; [|lra]. apply Rmult_le_pos; [assumption|]. apply Rle_0_sqr.
Qed.
Lemma acc_sign t l : (forall i, 0 <= t i) -> forall c, 0 <= c -> 0 <= acc r c t l.
Proof. intros T. induction l as [|i l IH]; intros c C; cbn; [assumption|]. apply IH. apply r_sign. pose proof (T i). lra. Qed.
Lemma scf_sign c a x : 0 <= c -> 0 <= scf c a x a x.
Proof. intros C. unfold scf. apply acc_sign; [|assumption]. intros i. apply sq_sign. apply W0. Qed.
End Acc.

Lemma acc_exact c t s : acc (fun x => x) c t s = c + lsum t s.
Proof. revert c. induction s; intros c; cbn; [lra|]. rewrite IHs. lra. Qed.
End Lists.
