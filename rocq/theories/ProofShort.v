(** Which rotation increments lose the attitude in double arithmetic. *)
From Coq Require Import Reals ZArith Lra Lia List.
From Flocq Require Import Core.
From Verif Require Import Base BaseVec SpecRot SpecFloat ModelAttitude ModelDate ModelNavUtils ModelStrapdown ModelStrapdownFloat SpecFloatOps ProofDate ProofRnd ProofStrapdownFloat ProofStrapdownFloat2.
Import ListNotations.
Local Open Scope R_scope.
Local Open Scope outcome_scope.

Lemma half_lost : rnd64 (bpow radix2 (-1075)) = 0.
Proof.
  unfold rnd64, round. assert (E : cexp radix2 (FLT_exp (-1074) 53) (bpow radix2 (-1075)) = (-1074)%Z).
  { unfold cexp. rewrite mag_bpow. unfold FLT_exp. lia. }
  assert (S : scaled_mantissa radix2 (FLT_exp (-1074) 53) (bpow radix2 (-1075)) = / 2).
  { unfold scaled_mantissa. rewrite E, <- bpow_plus. cbn. lra. }
  rewrite S. replace (ZnearestE (/ 2)) with 0%Z; [apply F2R_0|].
  unfold Znearest. assert (F : Zfloor (/ 2) = 0%Z) by (apply Zfloor_imp; cbn; lra). rewrite F.
  replace (/ 2 - IZR 0) with (/ 2) by (cbn; lra). rewrite Rcompare_Eq by lra. reflexivity.
Qed.
Lemma small_lost x : Rabs x <= bpow radix2 (-1075) -> rnd64 x = 0.
Proof.
  intros H. apply Rcomplements.Rabs_le_between in H. destruct H as [L U]. apply rnd64_le in L, U. rewrite half_lost in U. rewrite rnd64_opp, half_lost in L. lra.
Qed.
Lemma least_kept : rnd64 (bpow radix2 (-1074)) = bpow radix2 (-1074).
Proof. rewrite <- (Rmult_1_l (bpow radix2 (-1074))). apply (rnd64_exact 1); lia. Qed.
Lemma big_kept x : bpow radix2 (-1074) <= x -> bpow radix2 (-1074) <= rnd64 x.
Proof. intros H. rewrite <- least_kept. now apply rnd64_le. Qed.
Lemma not_small_kept x : bpow radix2 (-1075) < x -> bpow radix2 (-1074) <= rnd64 x.
Proof.
  intros H. pose proof (bpow_gt_0 radix2 (-1075)).
  destruct (Rle_lt_dec (bpow radix2 (-1074)) x) as [G|L]; [now apply big_kept|].
  assert (E : Rabs (rnd64 x - x) <= bpow radix2 (-1075)).
  { eapply Rle_trans; [apply error_le_half_ulp; apply FLT_exp_valid; reflexivity|].
    assert (U : ulp radix2 (FLT_exp (-1074) 53) x = bpow radix2 (-1074)).
    { apply ulp_FLT_small; [reflexivity|]. rewrite Rabs_right by lra. eapply Rlt_trans; [exact L|]. apply bpow_lt. lia. }
    rewrite U. replace (/ 2) with (bpow radix2 (-1)) by (cbn; lra). rewrite <- bpow_plus. apply bpow_le. lia. }
  apply Rcomplements.Rabs_le_between in E.
  apply (generic_format_ge_bpow radix2 (FLT_exp (-1074) 53)); [intros e; unfold FLT_exp; lia|lra|].
  apply generic_format_round; [apply FLT_exp_valid; reflexivity|apply valid_rnd_N].
Qed.
Lemma kept_nonneg x : 0 <= x -> 0 <= rnd64 x.
Proof. intros H. apply rnd64_le in H. now rewrite rnd64_0 in H. Qed.

(** The squares of all components of [d] round to zero. *)
Definition lost (d : vec3) : Prop := vx d * vx d <= bpow radix2 (-1075) /\ vy d * vy d <= bpow radix2 (-1075) /\ vz d * vz d <= bpow radix2 (-1075).
Lemma lost_dec d : lost d \/ ~ lost d.
Proof.
  unfold lost. destruct (Rle_lt_dec (vx d * vx d) (bpow radix2 (-1075))); [|right; lra].
  destruct (Rle_lt_dec (vy d * vy d) (bpow radix2 (-1075))); [|right; lra].
  destruct (Rle_lt_dec (vz d * vz d) (bpow radix2 (-1075))); [left; auto|right; lra].
Qed.
Lemma sq_pos x : 0 <= x * x. Proof. apply Rle_0_sqr. Qed.
Lemma sum_kept d : ~ lost d -> bpow radix2 (-1074) <= fdot binary64_ops d d.
Proof.
  intros N. cbn [binary64_ops fdot].
  pose proof (kept_nonneg _ (sq_pos (vx d))) as X. pose proof (kept_nonneg _ (sq_pos (vy d))) as Y. pose proof (kept_nonneg _ (sq_pos (vz d))) as Z.
  pose proof (not_small_kept (vx d * vx d)) as KX. pose proof (not_small_kept (vy d * vy d)) as KY. pose proof (not_small_kept (vz d * vz d)) as KZ.
  set (a := rnd64 (vx d * vx d)) in *. set (b := rnd64 (vy d * vy d)) in *. set (c := rnd64 (vz d * vz d)) in *.
  assert (P : 0 <= rnd64 (a + b)) by (apply kept_nonneg; lra).
  unfold lost in N. destruct (Rle_lt_dec (vz d * vz d) (bpow radix2 (-1075))) as [Hz|Hz].
  - assert (bpow radix2 (-1074) <= rnd64 (a + b)).
    { apply big_kept. destruct (Rle_lt_dec (vy d * vy d) (bpow radix2 (-1075))) as [Hy|Hy]; [|specialize (KY Hy); lra].
      destruct (Rle_lt_dec (vx d * vx d) (bpow radix2 (-1075))) as [Hx|Hx]; [tauto|specialize (KX Hx); lra]. }
    apply big_kept. lra.
  - specialize (KZ Hz). apply big_kept. lra.
Qed.
Lemma short_kept A d : ~ lost d -> exists A', updateAttitude_f binary64_ops A d = Ret (true, A').
Proof.
  intros N. pose proof (sum_kept d N) as S. pose proof (bpow_gt_0 radix2 (-1074)) as P. pose proof (bpow_gt_0 radix2 (-537)) as P5.
  unfold updateAttitude_f. cbn [frnd]. change (frnd binary64_ops) with rnd64.
  unfold sqrtc. destruct (Rlt_dec (fdot binary64_ops d d) 0); [lra|]. cbn [bind].
  assert (M : bpow radix2 (-537) <= rnd64 (sqrt (fdot binary64_ops d d))).
  { assert (E : rnd64 (bpow radix2 (-537)) = bpow radix2 (-537)) by (rewrite <- (Rmult_1_l (bpow radix2 (-537))); apply (rnd64_exact 1); lia).
    rewrite <- E. apply rnd64_le. replace (bpow radix2 (-537)) with (sqrt (bpow radix2 (-1074))); [now apply sqrt_le_1_alt|].
    replace (bpow radix2 (-1074)) with (bpow radix2 (-537) * bpow radix2 (-537)) by (rewrite <- bpow_plus; reflexivity). apply sqrt_square. lra. }
  set (m := rnd64 (sqrt (fdot binary64_ops d d))) in *. cbn [skewSymmetric negb].
  assert (Q : bpow radix2 (-1074) <= rnd64 (m * m)).
  { apply big_kept. replace (bpow radix2 (-1074)) with (bpow radix2 (-537) * bpow radix2 (-537)) by (rewrite <- bpow_plus; reflexivity). apply Rmult_le_compat; lra. }
  unfold Rdivc. destruct (Req_EM_T m 0); [lra|]. cbn [bind]. destruct (Req_EM_T (rnd64 (m * m)) 0); [lra|]. cbn [bind]. eauto.
Qed.
Lemma lost_lost A d : lost d -> updateAttitude_f binary64_ops A d = NonFinite.
Proof.
  intros (HX & HY & HZ). pose proof rnd64_0 as Z.
  unfold updateAttitude_f. cbn [binary64_ops frnd fdot fsin fcos].
  assert (L : forall x, x * x <= bpow radix2 (-1075) -> rnd64 (x * x) = 0) by (intros x H; apply small_lost; rewrite Rabs_right; [exact H|apply Rle_ge, sq_pos]).
  rewrite (L _ HX), (L _ HY), (L _ HZ).
  rewrite !Rplus_0_r, !Z. unfold sqrtc. destruct (Rlt_dec 0 0); [lra|]. cbn [bind].
  rewrite sqrt_0, Z. cbn [skewSymmetric negb]. unfold Rdivc. destruct (Req_EM_T 0 0) as [_|C]; [reflexivity|now elim C].
Qed.
Lemma finite_iff l : forall A, ((exists A', attitude_f binary64_ops A l = Ret A') <-> (forall d, In d l -> ~ lost d)) /\
  ((exists d, In d l /\ lost d) -> attitude_f binary64_ops A l = NonFinite).
Proof.
  induction l as [|d0 l IH]; intros A; cbn [attitude_f].
  - split; [split|]; [intros _ d []|intros _; eauto|intros (d & [] & _)].
  - destruct (lost_dec d0) as [L|L].
    + rewrite lost_lost by exact L. cbn [bind]. split; [split|reflexivity].
      * intros (A' & E). discriminate.
      * intros H. exfalso. exact (H d0 (or_introl eq_refl) L).
    + destruct (short_kept A d0 L) as (A' & ->). cbn [bind snd]. destruct (IH A') as (I & J). split.
      * rewrite I. split; [intros H d [<-|D]; [exact L|now apply H]|intros H d D; apply H; now right].
      * intros (d & [<-|D] & K); [contradiction|]. apply J. eauto.
Qed.
Lemma not_lost d : ~ lost d <-> bpow radix2 (-1075) < vx d * vx d \/ bpow radix2 (-1075) < vy d * vy d \/ bpow radix2 (-1075) < vz d * vz d.
Proof. unfold lost. lra. Qed.
Lemma finite_exactly A l : (exists A', attitude_f binary64_ops A l = Ret A') <->
  (forall d, In d l -> bpow radix2 (-1075) < vx d * vx d \/ bpow radix2 (-1075) < vy d * vy d \/ bpow radix2 (-1075) < vz d * vz d).
Proof. rewrite (proj1 (finite_iff l A)). split; intros H d D; apply not_lost, H, D. Qed.
Lemma lost_history A l d : In d l -> vx d * vx d <= bpow radix2 (-1075) -> vy d * vy d <= bpow radix2 (-1075) -> vz d * vz d <= bpow radix2 (-1075) ->
  attitude_f binary64_ops A l = NonFinite.
Proof. intros D X Y Z. apply (proj2 (finite_iff l A)). exists d. repeat split; assumption. Qed.
