(** No overflow in euler2Dcm, positions and gravity. *)
From Coq Require Import Reals ZArith List Lra Lia Psatz.
From Flocq Require Import Core IEEE754.Binary IEEE754.Bits.
From Verif Require Import Base BaseVec SpecRot ModelAttitude ModelNavUtils ModelDate ProofDate ModelGuardFloat ModelStrapdownFloat ModelFramesFloat
  ModelGravityFloat ModelAttitudeFloat SpecFloatOps SpecOverflow SpecStrapdown ProofVec ProofAttitude ProofRnd ProofStrapdownFloat ProofStrapdownFloat2
  ProofOverflow ProofOverflow2.
Import ListNotations.
Open Scope R_scope.

Lemma euler_same r e : binary64_in_range r -> euler2Dcm_f (ops_of r) e = euler2Dcm_f binary64_ops e.
Proof.
  intros Hr. unfold euler2Dcm_f. cbv zeta. f_equal. cbn [fsin fcos ops_of binary64_ops].
  repeat match goal with |- context [r (?f (?p e))] => let B := fresh "B" in let v := fresh "v" in
    assert (B : bd 0 (f (p e))) by (apply bd_sin || apply bd_cos); rewrite (same r Hr 0 _ B) by lia; apply (bd_rnd 0) in B; [|lia]; set (v := rnd64 (f (p e))) in * end.
  pose proof (bd_0 0). pose proof bd_1.
  match goal with |- mmul_f _ (mmul_f _ ?P ?Q) ?S = _ => assert (HP : mbd 0 P) by (unfold mbd, vbd; cbn; repeat split; auto using bd_opp);
    assert (HQ : mbd 0 Q) by (unfold mbd, vbd; cbn; repeat split; auto using bd_opp);
    assert (HS : mbd 0 S) by (unfold mbd, vbd; cbn; repeat split; auto using bd_opp);
    destruct (mmul_same r P Q 0 0 Hr HP HQ ltac:(lia)) as (E1 & M1); rewrite E1;
    destruct (mmul_same r _ S _ 0 Hr M1 HS ltac:(lia)) as (E2 & _); exact E2 end.
Qed.

(** ** Constants *)
Ltac num k := unfold bd; let v := eval compute in (bpow radix2 k) in change (bpow radix2 k) with v; rewrite Rabs_pos_eq; lra.
Lemma rnd_lo k x : (-1074 <= k)%Z -> bpow radix2 k <= x -> bpow radix2 k <= Rabs (rnd64 x).
Proof. intros K H. pose proof (rnd64_ge_bpow k x K H). pose proof (bpow_gt_0 radix2 k). rewrite Rabs_pos_eq; lra. Qed.
(** Dyadic bounds carry over to the rounded value. *)
Lemma rnd_up m e x : (-1074 <= e)%Z -> (Z.abs m <= 2 ^ 53)%Z -> x <= IZR m * bpow radix2 e -> rnd64 x <= IZR m * bpow radix2 e.
Proof. intros E M H. rewrite <- (rnd64_exact m e E M). now apply rnd64_le. Qed.
Lemma rnd_dn m e x : (-1074 <= e)%Z -> (Z.abs m <= 2 ^ 53)%Z -> IZR m * bpow radix2 e <= x -> IZR m * bpow radix2 e <= rnd64 x.
Proof. intros E M H. rewrite <- (rnd64_exact m e E M). now apply rnd64_le. Qed.
Definition c298 : R := 298257222101 / 1000000000.
Definition cf : R := rnd64 (1 / rnd64 c298).
Definition ce2 : R := rnd64 (1 - rnd64 (rnd64 (1 - cf) * rnd64 (1 - cf))).
Definition ce : R := rnd64 (sqrt ce2).
Lemma c298_lo : bpow radix2 8 <= Rabs (rnd64 c298).
Proof. apply rnd_lo; [lia|]. change (bpow radix2 8) with 256. unfold c298. lra. Qed.
Lemma cf_bd : 0 <= cf <= / 256.
Proof.
  pose proof c298_lo as L. change (bpow radix2 8) with 256 in L. assert (P : 256 <= rnd64 c298).
  { rewrite Rabs_pos_eq in L; [exact L|]. apply rnd64_ge0. unfold c298. lra. }
  assert (Q : 0 <= 1 / rnd64 c298 <= / 256).
  { unfold Rdiv. rewrite Rmult_1_l. split; [apply Rlt_le, Rinv_0_lt_compat; lra|apply Rinv_le_contravar; lra]. }
  unfold cf. split; [apply rnd64_ge0; lra|]. replace (/ 256) with (IZR 1 * bpow radix2 (-8)) by (cbn; lra). apply rnd_up; try lia. cbn. lra.
Qed.
Lemma ce2_bd : 0 <= ce2 <= / 64.
Proof.
  pose proof cf_bd as C. assert (A : 255 / 256 <= rnd64 (1 - cf) <= 1).
  { split.
    - replace (255 / 256) with (IZR 255 * bpow radix2 (-8)) by (cbn; lra). apply rnd_dn; try lia. cbn. lra.
    - replace 1 with (IZR 1 * bpow radix2 0) at 2 by (cbn; lra). apply rnd_up; try lia. cbn. lra. }
  set (a := rnd64 (1 - cf)) in *. assert (B : 63 / 64 <= rnd64 (a * a) <= 1).
  { split.
    - replace (63 / 64) with (IZR 63 * bpow radix2 (-6)) by (cbn; lra). apply rnd_dn; try lia. cbn. nra.
    - replace 1 with (IZR 1 * bpow radix2 0) by (cbn; lra). apply rnd_up; try lia. cbn. nra. }
  unfold ce2. fold a. split; [apply rnd64_ge0; lra|]. replace (/ 64) with (IZR 1 * bpow radix2 (-6)) by (cbn; lra). apply rnd_up; try lia. cbn. lra.
Qed.
Lemma ce_bd : 0 <= ce <= / 8.
Proof.
  pose proof ce2_bd as C. assert (S : 0 <= sqrt ce2 <= / 8).
  { split; [apply sqrt_pos|]. rewrite <- (sqrt_square (/ 8)) by lra. apply sqrt_le_1_alt. lra. }
  unfold ce. split; [apply rnd64_ge0; lra|]. replace (/ 8) with (IZR 1 * bpow radix2 (-3)) by (cbn; lra). apply rnd_up; try lia. cbn. lra.
Qed.
Lemma rsq_le1 s : Rabs s <= 1 -> 0 <= rnd64 (s * s) <= 1.
Proof.
  intros H. apply Rabs_le_inv in H. split; [apply sq_ge0|].
  replace 1 with (IZR 1 * bpow radix2 0) by (cbn; lra). apply rnd_up; try lia. cbn. nra.
Qed.
Lemma cs_lo s : Rabs s <= 1 -> bpow radix2 (-1) <= Rabs (rnd64 (sqrt (rnd64 (1 - rnd64 (rnd64 (ce * ce) * rnd64 (s * s)))))).
Proof.
  intros H. pose proof ce_bd as C. pose proof (rsq_le1 s H) as S. assert (A : 0 <= rnd64 (ce * ce) <= / 64).
  { split; [apply sq_ge0|]. replace (/ 64) with (IZR 1 * bpow radix2 (-6)) by (cbn; lra). apply rnd_up; try lia. cbn. nra. }
  set (p := rnd64 (ce * ce)) in *. set (q := rnd64 (s * s)) in *.
  assert (B : rnd64 (p * q) <= / 64) by (replace (/ 64) with (IZR 1 * bpow radix2 (-6)) by (cbn; lra); apply rnd_up; try lia; cbn; nra).
  apply rnd_lo; [lia|]. apply Rle_trans with (sqrt (bpow radix2 (-1) * bpow radix2 (-1))); [rewrite sqrt_square by apply bpow_ge_0; lra|].
  apply sqrt_le_1_alt. rewrite <- bpow_plus. apply rnd64_ge_bpow; [lia|]. cbn. lra.
Qed.

Definition pow2_of (r : R -> R) (x : R) : R := r (x * x).
Lemma abs_rnd_sin x : Rabs (rnd64 (sin x)) <= 1. Proof. change 1 with (bpow radix2 0). apply (bd_rnd 0); [lia|apply bd_sin]. Qed.
Lemma bd_a : bd 23 gp_a_f. Proof. unfold gp_a_f. num 23%Z. Qed.
Lemma bd_c298 : bd 9 c298. Proof. unfold c298. num 9%Z. Qed.
Lemma lla_same r lat lon alt rE : binary64_in_range r -> bd 1000 alt ->
  lla2Ecef_f (ops_of r) (pow2_of r) lat lon alt rE = lla2Ecef_f binary64_ops pow2_64 lat lon alt rE.
Proof.
  intros Hr Ha. unfold lla2Ecef_f. destruct (negb (latLonGuard lat lon)); [reflexivity|].
  cbv zeta. unfold gp_f_f. cbn [frnd fsin fcos ops_of binary64_ops]. unfold pow2_of, pow2_64. cbv beta.
  set (la := B2R 53 1024 lat). set (lo := B2R 53 1024 lon). pose proof (cs_lo _ (abs_rnd_sin la)) as L.
  pose proof bd_a as BA. pose proof bd_c298 as BC. pose proof c298_lo as LC. unfold ce, ce2, cf in L. change (298257222101 / 1000000000) with c298.
  set (a := gp_a_f) in *. set (c := c298) in *.
  repeat ov r Hr. unfold sqrtc. match goal with |- context [Rlt_dec ?d 0] => destruct (Rlt_dec d 0) end; [reflexivity|]. cbn [bind].
  repeat ov r Hr. match goal with |- context [Rlt_dec ?d 0] => destruct (Rlt_dec d 0) end; [reflexivity|]. cbn [bind].
  repeat ov r Hr. unfold Rdivc. match goal with |- context [Req_EM_T ?d 0] => destruct (Req_EM_T d 0) end; [reflexivity|]. cbn [bind].
  repeat ov r Hr. reflexivity.
Qed.

(** ** Gravity *)
Lemma sc_half x : bpow radix2 (-1) <= Rabs (rnd64 (cos x)) \/ bpow radix2 (-1) <= Rabs (rnd64 (sin x)).
Proof.
  assert (A : forall t, / 2 <= Rabs t -> bpow radix2 (-1) <= Rabs (rnd64 t)).
  { intros t H. change (bpow radix2 (-1)) with (/ 2). destruct (Rle_dec 0 t) as [P|P].
    - apply (rnd_lo (-1)); [lia|]. rewrite Rabs_pos_eq in H by exact P. exact H.
    - rewrite <- (Ropp_involutive t), rnd64_opp, Rabs_Ropp. apply (rnd_lo (-1)); [lia|]. rewrite Rabs_left in H by lra. exact H. }
  destruct (Rle_dec (/ 2) (Rabs (cos x))) as [H|H]; [left; now apply A|right; apply A].
  apply Rnot_le_lt in H. destruct (Rle_dec (/ 2) (Rabs (sin x))) as [K|K]; [exact K|exfalso]. apply Rnot_le_lt in K.
  pose proof (sin2_cos2 x) as E. unfold Rsqr in E. apply Rabs_def2 in H. apply Rabs_def2 in K. nra.
Qed.
Lemma mul_lo k l x y : (-1074 <= k + l)%Z -> bpow radix2 k <= x -> bpow radix2 l <= y -> bpow radix2 (k + l) <= rnd64 (x * y).
Proof.
  intros K A B. apply rnd64_ge_bpow; [exact K|]. rewrite bpow_plus. pose proof (bpow_gt_0 radix2 k). pose proof (bpow_gt_0 radix2 l).
  apply Rmult_le_compat; lra.
Qed.
Definition cb : R := 63567523141 / 10000.
Lemma den_lo x : bpow radix2 20 <= Rabs (rnd64 (sqrt (rnd64 (rnd64 (rnd64 (gp_a_f * gp_a_f) * rnd64 (rnd64 (cos x) * rnd64 (cos x))) +
   rnd64 (rnd64 (rnd64 cb * rnd64 cb) * rnd64 (rnd64 (sin x) * rnd64 (sin x))))))).
Proof.
  apply rnd_lo; [lia|]. apply Rle_trans with (sqrt (bpow radix2 20 * bpow radix2 20)); [rewrite sqrt_square by apply bpow_ge_0; lra|].
  apply sqrt_le_1_alt. rewrite <- bpow_plus. change (20 + 20)%Z with 40%Z.
  assert (A : bpow radix2 44 <= rnd64 (gp_a_f * gp_a_f)) by (apply (sq_ge 22); [lia|]; unfold gp_a_f; rewrite Rabs_pos_eq by lra; change (bpow radix2 22) with 4194304; lra).
  assert (B : bpow radix2 44 <= rnd64 (rnd64 cb * rnd64 cb)) by (apply (sq_ge 22); [lia|]; apply rnd_lo; [lia|]; unfold cb; change (bpow radix2 22) with 4194304; lra).
  pose proof (bpow_gt_0 radix2 44). pose proof (sq_ge0 (rnd64 (cos x))). pose proof (sq_ge0 (rnd64 (sin x))).
  apply acc; [lia|apply rnd64_ge0; nra|apply rnd64_ge0; nra|].
  destruct (sc_half x) as [HH|HH]; [left|right]; apply Rle_trans with (bpow radix2 (44 + (-1 + -1))); try (apply bpow_le; lia);
    apply mul_lo; auto; try lia; apply sq_ge; auto; lia.
Qed.
Lemma gravity_same r lat h : binary64_in_range r -> bd 1000 lat -> bd 400 h ->
  gravityNed_f (ops_of r) (pow2_of r) lat h = gravityNed_f binary64_ops pow2_64 lat h.
Proof.
  intros Hr Hl Hh. unfold gravityNed_f. cbv zeta. unfold gp_f_f, gp_b_f, gp_kM_f, gp_wE_f, gp_gEq_f, gp_gPole_f.
  cbn [frnd fsin fcos ops_of binary64_ops]. unfold pow2_of, pow2_64. cbv beta.
  pose proof (den_lo lat) as L. pose proof bd_a as BA. pose proof bd_c298 as BC. pose proof c298_lo as LC.
  assert (LA : bpow radix2 22 <= Rabs gp_a_f) by (unfold gp_a_f; rewrite Rabs_pos_eq by lra; change (bpow radix2 22) with 4194304; lra).
  assert (LA2 : bpow radix2 44 <= Rabs (rnd64 (gp_a_f * gp_a_f))) by (rewrite Rabs_pos_eq by apply sq_ge0; now apply (sq_ge 22)).
  assert (LK : bpow radix2 47 <= Rabs (rnd64 (rnd64 (3986005 / 1000000) * 100000000000000))).
  { rewrite Rabs_pos_eq; [apply (mul_lo 1 46); [lia|apply rnd64_ge_bpow; [lia|]; change (bpow radix2 1) with 2; lra|]|].
    - change (bpow radix2 46) with 70368744177664. lra.
    - apply rnd64_ge0. pose proof (rnd64_ge0 (3986005 / 1000000) ltac:(lra)). lra. }
  assert (LT : bpow radix2 9 <= Rabs 1000) by (rewrite Rabs_pos_eq by lra; change (bpow radix2 9) with 512; lra).
  assert (C0 : bd 23 cb) by (unfold cb; num 23%Z).
  assert (C1 : bd 3 (7292115 / 1000000)) by num 3%Z.
  assert (C2 : bd 0 (1 / 100000)) by num 0%Z.
  assert (C3 : bd 2 (3986005 / 1000000)) by num 2%Z.
  assert (C4 : bd 47 100000000000000) by num 47%Z.
  assert (C5 : bd 4 (97803267715 / 10000000000)) by num 4%Z.
  assert (C6 : bd 4 (98321863685 / 10000000000)) by num 4%Z.
  assert (C7 : bd 4 (808 / 100)) by num 4%Z.
  assert (C8 : bd 0 (1 / 1000000)) by num 0%Z.
  assert (C9 : bd 2 3) by num 2%Z.
  change (298257222101 / 1000000000) with c298. change (63567523141 / 10000) with cb.
  set (a := gp_a_f) in *. set (c := c298) in *. set (b := cb) in *. set (k1 := 7292115 / 1000000) in *. set (k2 := 1 / 100000) in *.
  set (k3 := 3986005 / 1000000) in *. set (k4 := 100000000000000) in *. set (k5 := 97803267715 / 10000000000) in *.
  set (k6 := 98321863685 / 10000000000) in *. set (k7 := 808 / 100) in *. set (k8 := 1 / 1000000) in *.
  repeat ov r Hr. unfold sqrtc, Rdivc. match goal with |- context [Req_EM_T ?d 0] => destruct (Req_EM_T d 0) end; [reflexivity|]. cbn [bind].
  repeat ov r Hr. match goal with |- context [Rlt_dec ?d 0] => destruct (Rlt_dec d 0) end; [reflexivity|]. cbn [bind].
  repeat ov r Hr. match goal with |- context [Req_EM_T ?d 0] => destruct (Req_EM_T d 0) end; [reflexivity|]. cbn [bind].
  repeat ov r Hr. match goal with |- context [Req_EM_T ?d 0] => destruct (Req_EM_T d 0) end; [reflexivity|]. cbn [bind].
  repeat ov r Hr. reflexivity.
Qed.
