(** Runs of updates without overflow, and inputs that do overflow. *)
From Coq Require Import Reals ZArith List Lra Lia Psatz.
From Flocq Require Import Core IEEE754.Binary IEEE754.Bits.
From Verif Require Import Base BaseVec SpecRot ModelAttitude ModelNavUtils ModelDate ProofDate ModelStrapdownFloat ModelFramesFloat
  ModelGravityFloat ModelAttitudeFloat SpecFloatOps SpecOverflow SpecStrapdown ProofVec ProofAttitude ProofRnd ProofStrapdown ProofStrapdown2 ProofAttitude2 ProofStrapdownFloat ProofStrapdownFloat2
  ProofOverflow ProofOverflow2 ProofOverflow3.
Import ListNotations.
Open Scope R_scope.

Lemma rotation_chain_same r A0 l : binary64_in_range r -> is_rotation A0 ->
  (forall d, In d l -> bpow radix2 (-480) <= norm d <= 4) -> 2100 * u64 * INR (length l) <= 1 ->
  attitude_f (ops_of r) A0 l = attitude_f binary64_ops A0 l.
Proof.
  intros Hr H0 Hl Hn. apply (chain_same r Hr l 0 A0 (mvmul A0)); auto; try lra.
  - intros v. now apply norm_rotated.
  - intros v. rewrite Rmult_0_l. replace (vsub (mvmul A0 v) (mvmul A0 v)) with v3zero by (unfold vsub, v3zero; f_equal; ring).
    unfold norm, dot, v3zero; cbn. rewrite !Rmult_0_l, !Rplus_0_l, sqrt_0. lra.
Qed.
Lemma init_chain_same r rph l : binary64_in_range r ->
  (forall d, In d l -> bpow radix2 (-480) <= norm d <= 4) -> 2100 * u64 * (INR (length l) + 1) <= 1 ->
  attitude_f (ops_of r) (snd (euler2Dcm_f (ops_of r) rph)) l = attitude_f binary64_ops (snd (euler2Dcm_f binary64_ops rph)) l.
Proof.
  intros Hr Hl Hn. pose proof u64_bounds. pose proof (pos_INR (length l)). rewrite (euler_same r rph Hr).
  apply (chain_same r Hr l (210 * u64) _ (mvmul (snd (euler2Dcm rph)))); auto; try lra.
  - intros v. apply norm_rotated. apply euler_matrix_rotation.
  - apply euler_near. apply binary64_ok.
Qed.

(** Zero in place of an overflow. *)
Definition drop (x : R) : R := if Rlt_dec (Rabs (rnd64 x)) (bpow radix2 1024) then rnd64 x else 0.
Lemma drop_ok : binary64_in_range drop.
Proof. intros x H. unfold drop. destruct (Rlt_dec _ _); [reflexivity|contradiction]. Qed.
Lemma drop_0 : drop 0 = 0.
Proof. rewrite (same drop drop_ok 0 0); [apply rnd64_0|apply bd_0|lia]. Qed.
Lemma drop_big k : (1024 <= k)%Z -> drop (bpow radix2 k) = 0.
Proof.
  intros K. unfold drop. rewrite rnd64_bpow by lia. destruct (Rlt_dec _ _) as [L|L]; [|reflexivity]. exfalso.
  rewrite Rabs_pos_eq in L by apply bpow_ge_0. apply (Rlt_not_le _ _ L). apply bpow_le. lia.
Qed.
Lemma large_quaternion : exists r, binary64_in_range r /\
  dcm_entries_f (ops_of r) (bpow radix2 512) 0 0 0 = NonFinite /\
  dcm_entries_f binary64_ops (bpow radix2 512) 0 0 0 = Ret m3id.
Proof.
  exists drop. split; [apply drop_ok|]. assert (E : bpow radix2 512 * bpow radix2 512 = bpow radix2 1024) by (rewrite <- bpow_plus; reflexivity).
  split; unfold dcm_entries_f; cbn [frnd ops_of binary64_ops]; cbv zeta beta; rewrite E.
  - rewrite drop_big by lia. repeat (progress rewrite ?Rmult_0_l, ?Rmult_0_r, ?Rplus_0_l, ?Rminus_0_r, ?drop_0). unfold Rdivc. destruct (Req_EM_T 0 0); [reflexivity|congruence].
  - assert (RB : rnd64 (bpow radix2 1024) = bpow radix2 1024) by (apply rnd64_bpow; lia).
    repeat (progress rewrite ?Rmult_0_l, ?Rmult_0_r, ?Rplus_0_l, ?Rplus_0_r, ?Rminus_0_r, ?rnd64_0, ?RB).
    pose proof (bpow_gt_0 radix2 1024) as P. unfold Rdivc. destruct (Req_EM_T (bpow radix2 1024) 0); [lra|]. cbn [bind].
    assert (Z0 : 0 / bpow radix2 1024 = 0) by (unfold Rdiv; ring). assert (Z1 : bpow radix2 1024 / bpow radix2 1024 = 1) by (field; lra).
    rewrite Z0, Z1, rnd64_0. change 1 with (bpow radix2 0). rewrite rnd64_bpow by lia. reflexivity.
Qed.
Lemma overflow_case : binary64_in_range rnd64 /\ is_rotation m3id /\ bpow radix2 (-480) <= norm (V3 0 0 1) <= 4 /\
  2100 * u64 * INR 1 <= 1 /\ Rabs 10000000 <= bpow radix2 400.
Proof.
  split; [now intros x _|]. split; [apply rotation_id|]. split.
  - replace (norm (V3 0 0 1)) with 1 by (unfold norm, dot; cbn; replace (0 * 0 + 0 * 0 + 1 * 1) with 1 by ring; now rewrite sqrt_1).
    split; [|lra]. change 1 with (bpow radix2 0). apply bpow_le. lia.
  - split; [pose proof u64_bounds; cbn; lra|]. rewrite Rabs_pos_eq by lra. apply Rle_trans with (bpow radix2 24); [change (bpow radix2 24) with 16777216; lra|apply bpow_le; lia].
Qed.
