(** Rounding errors of the angles of the J2000 / ECEF rotation. *)
From Coq Require Import Reals ZArith List Lra Lia Psatz.
From Flocq Require Import Core.
From Verif Require Import Base BaseVec SpecEop SpecJ2k ModelEop ModelJ2k ModelHourFloat ModelJ2kFloat ModelStrapdownFloat SpecFloatOps ProofVec ProofPi ProofJ2k
  ProofStrapdownFloat ProofGravityFloat ProofHourFloat.
Import ListNotations.
Open Scope R_scope.

Section Float.
Variable F : FloatOps.
Hypothesis HF : float_ok F.
Notation u := u64.
Let r := frnd F.

Ltac bn := lazymatch goal with
  | H : ap ?x ?y _ _ |- ap ?x ?y _ _ => exact H
  | |- ap (r _) _ _ _ => unfold r at 1; eapply (ap_rnd F HF); bn
  | |- ap (frnd _ _) _ _ _ => eapply (ap_rnd F HF); bn
  | |- ap (_ * _) (_ * _) _ _ => eapply ap_mul; [bn|bn]
  | |- ap (_ / _) (_ / _) _ _ => eapply ap_divc; [lra|bn]
  | |- ap (_ + _) (_ + _) _ _ => eapply ap_add; [bn|bn]
  | |- ap (_ - _) (_ - _) _ _ => eapply ap_sub; [bn|bn]
  | |- ap (- _) (- _) _ _ => eapply ap_opp; bn
  | |- ap ?x ?x _ _ => apply ap_const; lra end.
Ltac ab := eapply ap_le; [bn| |]; num.

(** ** Arcseconds per radian *)
Lemma Arcs_val : 206264 <= Arcs <= 206266.
Proof.
  pose proof PI_bounds as P. unfold Arcs. split.
  - apply (Rmult_le_reg_r PI); [lra|]. replace (3600 * 180 / PI * PI) with 648000 by (field; lra). lra.
  - apply (Rmult_le_reg_r PI); [lra|]. replace (3600 * 180 / PI * PI) with 648000 by (field; lra). lra.
Qed.
Lemma pi_ap : ap PI PI 0 (315 / 100).
Proof. pose proof PI_bounds as P. apply ap_exact, Rabs_le. lra. Qed.
Lemma Arcs_ap : ap (Arcs_f F) Arcs 500000 206266.
Proof.
  pose proof pi_ap as P. assert (A : ap (r PI) PI (316 / 100) (315 / 100)) by ab.
  pose proof PI_bounds as B.
  destruct (ap_div (3600 * 180) (3600 * 180) 0 648000 (r PI) PI (316 / 100) (315 / 100) 3) as (_ & D).
  - apply ap_exact, Rabs_le. lra.
  - exact A.
  - lra.
  - rewrite Rabs_right; lra.
  - num.
  - unfold Arcs_f. fold r. eapply ap_le; [eapply (ap_rnd F HF); apply (apM _ _ _ _ 206266 D)| |].
    + change (3600 * 180 / PI) with Arcs. pose proof Arcs_val. rewrite Rabs_right; lra.
    + num.
    + lra.
Qed.
Lemma divA x y k M : ap x y k M -> Rdivc x (Arcs_f F) = Ret (x / Arcs_f F) /\
  ap (r (x / Arcs_f F)) (y / Arcs) ((k + M * 25 / 10) / 205000 + M / 205000 + 1 / 1000) (M / 206264).
Proof.
  intros H. pose proof Arcs_val as V. destruct (ap_pos _ _ _ _ H) as (P1 & P2).
  destruct (ap_div x y k M (Arcs_f F) Arcs 500000 206266 206264 H Arcs_ap) as (N & D); [lra|rewrite Rabs_right; lra|num|].
  split; [unfold Rdivc; now destruct (Req_EM_T _ 0)|].
  eapply ap_le; [eapply (ap_rnd F HF); exact D| |lra]. num.
Qed.

(** ** Reduction of an argument by whole turns *)
Lemma reduce_f x' x k M : ap x' x k M -> k <= 100000000000 ->
  exists y j, reduceArg_f F x' = Ret y /\ ap y (x - IZR j * 1296000) (k + 1297000) 1296001.
Proof.
  intros H K. destruct (ap_pos _ _ _ _ H) as (P1 & _). destruct H as (H & _). pose proof u64_bounds as U.
  assert (KU : k * u <= 1 / 1000) by (apply Rle_trans with (100000000000 * u); [apply Rmult_le_compat_r; lra|lra]).
  unfold reduceArg_f. fold r. replace (360 * 3600) with 1296000 by lra.
  destruct (fmodc_ok x' 1296000) as (j & -> & B & _); [lra|]. cbn [bind]. apply Rabs_le_inv in H.
  set (y := x' - IZR j * 1296000) in *. destruct (Rlt_dec y 0) as [L|L].
  - exists (r (y + 1296000)), (j - 1)%Z. split; [reflexivity|]. rewrite minus_IZR.
    assert (A : ap (y + 1296000) (x - (IZR j - 1) * 1296000) k 1296001).
    { split; apply Rabs_le; unfold y in *; lra. }
    eapply ap_le; [eapply (ap_rnd F HF); exact A| |lra]. num.
  - exists y, j. split; [reflexivity|]. split; [|apply Rabs_le; unfold y in *; lra].
    apply Rle_trans with (k * u); [apply Rabs_le; unfold y; lra|apply Rmult_le_compat_r; lra].
Qed.

(** ** The sums over the table *)
Definition multiples_ok (c : Z * Z * Z * Z * Z * Z * Z * Z * Z) : bool :=
  let '(i, j, k, m, n, _, _, _, _) := c in
  forallb (fun x => Z.leb (Z.abs x) 4) [i; j; k; m; n].
Lemma table_multiples : forallb multiples_ok nutationTable = true.
Proof. vm_compute. reflexivity. Qed.

Definition wt (p q : Z) : R := IZR (Z.abs p) + 3 * IZR (Z.abs q).
Lemma wt_pos p q : 0 <= wt p q.
Proof. unfold wt. pose proof (IZR_le 0 (Z.abs p) ltac:(lia)). pose proof (IZR_le 0 (Z.abs q) ltac:(lia)). lra. Qed.
Lemma izr_ap c : ap (IZR c) (IZR c) 0 (IZR (Z.abs c)).
Proof. apply ap_exact. rewrite abs_IZR. lra. Qed.
Lemma izr4 c : (Z.abs c <=? 4)%Z = true -> ap (IZR c) (IZR c) 0 4.
Proof. intros H. apply Z.leb_le in H. eapply ap_le; [apply izr_ap|lra|]. apply IZR_le in H. exact H. Qed.

Section Terms.
Variables T' T l' l lp' lp Fa' Fa D' D Om' Om : R.
Hypothesis HT : ap T' T 8 2.
Hypothesis Hl : ap l' l 50000000000 1296001.
Hypothesis Hlp : ap lp' lp 50000000000 1296001.
Hypothesis HFa : ap Fa' Fa 50000000000 1296001.
Hypothesis HD : ap D' D 50000000000 1296001.
Hypothesis HO : ap Om' Om 50000000000 1296001.

Lemma amp_ap p q : ap (r (IZR p + r (IZR q * T'))) (IZR p + IZR q * T) (20 * wt p q + 1) (wt p q).
Proof.
  pose proof (izr_ap p) as A. pose proof (izr_ap q) as B. unfold wt.
  assert (P : 0 <= IZR (Z.abs p)) by (apply IZR_le; lia). assert (Q : 0 <= IZR (Z.abs q)) by (apply IZR_le; lia).
  set (a := IZR (Z.abs p)) in *. set (b := IZR (Z.abs q)) in *. clearbody a b. ab.
Qed.
Lemma arg_ap c0 c1 c2 c3 c4 : ap (IZR c0) (IZR c0) 0 4 -> ap (IZR c1) (IZR c1) 0 4 -> ap (IZR c2) (IZR c2) 0 4 ->
  ap (IZR c3) (IZR c3) 0 4 -> ap (IZR c4) (IZR c4) 0 4 ->
  ap (r (r (r (r (r (r (IZR c0 * l') + r (IZR c1 * lp')) + r (IZR c2 * Fa')) + r (IZR c3 * D')) + r (IZR c4 * Om')) / Arcs_f F))
    ((IZR c0 * l + IZR c1 * lp + IZR c2 * Fa + IZR c3 * D + IZR c4 * Om) / Arcs) 5000000 127.
Proof.
  intros C0 C1 C2 C3 C4.
  assert (A : forall c x' x, ap c c 0 4 -> ap x' x 50000000000 1296001 -> ap (r (c * x')) (c * x) 200010000000 5184004).
  { intros c x' x C X. ab. }
  pose proof (A _ _ _ C0 Hl) as A0. pose proof (A _ _ _ C1 Hlp) as A1. pose proof (A _ _ _ C2 HFa) as A2.
  pose proof (A _ _ _ C3 HD) as A3. pose proof (A _ _ _ C4 HO) as A4. clear A.
  match goal with |- ap (r (?s / _)) (?s0 / _) _ _ => assert (S : ap s s0 1001000000000 25920020) by ab end.
  eapply ap_le; [exact (proj2 (divA _ _ _ _ S))| |]; lra.
Qed.
Lemma sin_ap a' a : ap a' a 5000000 127 -> ap (fsin F a') (sin a) 5000002 1 /\ ap (fcos F a') (cos a) 5000002 1.
Proof.
  intros (H & _). destruct HF as (_ & _ & S & C). specialize (S a'). specialize (C a').
  pose proof (sin_lip a' a). pose proof (cos_lip a' a). split; (split; [|apply sin_abs || apply cos_abs]).
  - eapply Rle_trans; [eapply abs_tri; [exact S|eapply Rle_trans; [eassumption|exact H]]|]. lra.
  - eapply Rle_trans; [eapply abs_tri; [exact C|eapply Rle_trans; [eassumption|exact H]]|]. lra.
Qed.
Lemma term_ap a' a s' s w : ap a' a (20 * w + 1) w -> ap s' s 5000002 1 -> ap (r (a' * s')) (a * s) (5100000 * w + 2) w.
Proof. intros A S. destruct (ap_pos _ _ _ _ A) as (_ & W). ab. Qed.
Lemma acc_ap S' S t' t k W w : ap S' S k W -> ap t' t (5100000 * w + 2) w -> W + w <= 2000000 -> k <= 11000000000000 ->
  ap (r (S' + t')) (S + t) (k + 5100000 * w + 2000004) (W + w).
Proof. intros A B L K. destruct (ap_pos _ _ _ _ A) as (P & Q). destruct (ap_pos _ _ _ _ B) as (P' & Q'). ab. Qed.

Definition kk (n : nat) (W : R) : R := 5100000 * W + 2000004 * INR n.
Definition W5 (t : list (Z * Z * Z * Z * Z * Z * Z * Z * Z)) : R := IZR (zabs_sum c5 t) + 3 * IZR (zabs_sum c6 t).
Definition W7 (t : list (Z * Z * Z * Z * Z * Z * Z * Z * Z)) : R := IZR (zabs_sum c7 t) + 3 * IZR (zabs_sum c8 t).

Lemma zabs_cons f c t : IZR (zabs_sum f (c :: t)) = IZR (Z.abs (f c)) + IZR (zabs_sum f t).
Proof. unfold zabs_sum. cbn [fold_right]. now rewrite plus_IZR. Qed.
Lemma zabs_pos f t : 0 <= IZR (zabs_sum f t).
Proof. apply IZR_le. induction t as [|c t IH]; cbn; [lia|]. fold (zabs_sum f t). lia. Qed.

Lemma fold_ap tab : forall s' s n U V, forallb multiples_ok tab = true ->
  ap (fst s') (fst s) (kk n U) U -> ap (snd s') (snd s) (kk n V) V ->
  U + W5 tab <= 2000000 -> V + W7 tab <= 2000000 -> (n + List.length tab <= 110)%nat ->
  let q' := fold_left (nutationStep_f F l' lp' Fa' D' Om' T') tab s' in
  let q := fold_left (nutationStep l lp Fa D Om T) tab s in
  ap (fst q') (fst q) 11000000000000 2000000 /\ ap (snd q') (snd q) 11000000000000 2000000.
Proof.
  induction tab as [|c tab IH]; intros s' s n U V HM A B HU HV HN q' q.
  - unfold q, q'. cbn [fold_left]. cbn [List.length] in HN. assert (N : INR n <= 110) by (rewrite INR_IZR_INZ; apply IZR_le; lia).
    unfold W5, W7, zabs_sum in *. cbn [fold_right] in HU, HV. unfold kk in *.
    split; (eapply ap_le; [eassumption|lra|lra]).
  - cbn [forallb] in HM. apply andb_prop in HM. destruct HM as (HC & HM). cbn [List.length] in HN.
    unfold q, q'. cbn [fold_left]. apply (IH _ _ (S n) (U + wt (c5 c) (c6 c)) (V + wt (c7 c) (c8 c)) HM); clear IH.
    3: { unfold W5 in *. rewrite !zabs_cons in HU. unfold wt. lra. }
    3: { unfold W7 in *. rewrite !zabs_cons in HV. unfold wt. lra. }
    3: lia.
    all: assert (N : INR n <= 110) by (rewrite INR_IZR_INZ; apply IZR_le; lia).
    all: destruct (ap_pos _ _ _ _ A) as (A0 & A1); destruct (ap_pos _ _ _ _ B) as (B0 & B1).
    all: assert (X5 : wt (c5 c) (c6 c) <= W5 (c :: tab)) by (unfold W5, wt; rewrite !zabs_cons; pose proof (zabs_pos c5 tab); pose proof (zabs_pos c6 tab); lra).
    all: assert (X7 : wt (c7 c) (c8 c) <= W7 (c :: tab)) by (unfold W7, wt; rewrite !zabs_cons; pose proof (zabs_pos c7 tab); pose proof (zabs_pos c8 tab); lra).
    all: destruct c as [[[[[[[[i0 i1] i2] i3] i4] p] p1] q0] q1]; cbn [c5 c6 c7 c8] in *; cbn [multiples_ok forallb] in HC;
      repeat (apply andb_prop in HC; destruct HC as (?C & HC)); unfold nutationStep_f, nutationStep; cbn [fst snd]; fold r.
    all: pose proof (arg_ap i0 i1 i2 i3 i4 (izr4 _ C) (izr4 _ C0) (izr4 _ C1) (izr4 _ C2) (izr4 _ C3)) as G; apply sin_ap in G; destruct G as (G1 & G2).
    all: assert (KS : forall W w, kk (S n) (W + w) = kk n W + 5100000 * w + 2000004) by (intros; unfold kk; rewrite S_INR; ring).
    all: rewrite KS; apply acc_ap; try assumption; try (apply term_ap; [apply amp_ap|assumption]); try lra.
    + unfold kk. pose proof (wt_pos p p1). lra.
    + unfold kk. pose proof (wt_pos q0 q1). lra.
Qed.
End Terms.
End Float.
