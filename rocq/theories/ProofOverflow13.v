(** No overflow in the conversion of a position to latitude, longitude and altitude. *)
From Coq Require Import Reals ZArith List Lra Lia Psatz.
From Flocq Require Import Core IEEE754.Binary IEEE754.Bits.
From Verif Require Import Base BaseVec ModelDate ProofDate ModelStrapdownFloat ModelFramesFloat ModelGravityFloat ModelLlaFloat
  SpecFloatOps SpecLlaFloat SpecOverflow ProofRnd ProofPi ProofTrig ProofLlaFloat2 ProofLlaPole ProofOverflow ProofOverflow2 ProofOverflow3 ProofOverflow9 ProofOverflow12.
Import ListNotations.
Open Scope R_scope.

Lemma bd_PI : bd 2 PI. Proof. pose proof PI_bounds. unfold bd. change (bpow radix2 2) with 4. rewrite Rabs_pos_eq; lra. Qed.
Lemma bd_atan2 y x : bd 2 (atan2 y x).
Proof. pose proof PI_bounds. pose proof (atan2_range y x). unfold bd. change (bpow radix2 2) with 4. apply Rabs_le. lra. Qed.
Lemma rnd_abs_lo k x : (-1074 <= k)%Z -> bpow radix2 k <= Rabs x -> bpow radix2 k <= Rabs (rnd64 x).
Proof.
  intros K H. destruct (Rle_dec 0 x) as [P|P].
  - apply rnd_lo; [exact K|]. now rewrite Rabs_pos_eq in H.
  - rewrite <- (Ropp_involutive x), rnd64_opp, Rabs_Ropp. apply rnd_lo; [exact K|]. rewrite Rabs_left in H by lra. exact H.
Qed.
Lemma cos_at_lo y x : bpow radix2 (-57) <= Rabs (rnd64 (cos (rnd64 (atan2 y x)))).
Proof.
  apply rnd_abs_lo; [lia|]. apply Rle_trans with (1 / 100000000000000000).
  - change (bpow radix2 (-57)) with (/ 144115188075855872). lra.
  - apply cos_double_lo.
    + unfold rnd64. apply generic_format_round; [apply FLT_exp_valid; reflexivity|apply valid_rnd_N].
    + pose proof (proj2 (proj2 atan2_64_ok) y x) as H. unfold atan2_64 in H. cbn [frnd binary64_ops] in H. rewrite rnd_pi in H. pose proof ProofGuardFloat.pi64_lt_PI. lra.
Qed.
Lemma two_pi_big y x : 0 < rnd64 (2 * rnd64 PI) /\ Rabs (rnd64 (atan2 y x)) < rnd64 (2 * rnd64 PI).
Proof.
  pose proof (proj2 (proj2 atan2_64_ok) y x) as H. unfold atan2_64 in H. cbn [frnd binary64_ops] in H. pose proof PI_bounds as P.
  assert (A : IZR 3 * bpow radix2 0 <= rnd64 PI) by (apply rnd_dn; try lia; cbn; lra).
  assert (A' : rnd64 PI <= IZR 4 * bpow radix2 0) by (apply rnd_up; try lia; cbn; lra). cbn [bpow] in A, A'.
  assert (B : IZR 6 * bpow radix2 0 <= rnd64 (2 * rnd64 PI)) by (apply rnd_dn; try lia; cbn [bpow]; lra). cbn [bpow] in B. lra.
Qed.
Ltac oa r Hr := match goal with |- context [r (atan2 ?Y ?X)] =>
  lazymatch Y with context [r _] => fail | _ => idtac end; lazymatch X with context [r _] => fail | _ => idtac end;
  rewrite (same r Hr 2 _ (bd_atan2 Y X)) by lia; pose proof (cos_at_lo Y X); pose proof (bd_rnd 2 _ ltac:(lia) (bd_atan2 Y X)); pose proof (two_pi_big Y X);
  pose proof (abs_rnd_sin (rnd64 (atan2 Y X))); pose proof (cs_lo _ (abs_rnd_sin (rnd64 (atan2 Y X))));
  let v := fresh "t" in set (v := rnd64 (atan2 Y X)) in *; clearbody v end.
Lemma ecef_same r rE : binary64_in_range r -> vbd 400 rE ->
  ecef2Lla_f (ops_of r) (pow2_of r) (fun x => r (x * x * x)) (fun y x => r (atan2 y x)) rE = ecef2Lla_f binary64_ops pow2_64 pow3_64 atan2_64 rE.
Proof.
  intros Hr (x1 & y1 & z1). unfold ecef2Lla_f. cbv zeta. unfold gp_f_f, gp_b_f. cbn [frnd fsin fcos ops_of binary64_ops]. unfold pow2_of, pow2_64, pow3_64, atan2_64. cbv beta.
  change (298257222101 / 1000000000) with c298. change (63567523141 / 10000) with cb.
  pose proof bd_a as BA. pose proof bd_c298 as BC. pose proof c298_lo as LC. pose proof bd_PI as BP.
  assert (CB : bd 23 cb) by (unfold cb; num 23%Z).
  assert (LB : bpow radix2 44 <= Rabs (rnd64 (rnd64 cb * rnd64 cb))).
  { rewrite Rabs_pos_eq by apply sq_ge0. apply (sq_ge 22); [lia|]. apply rnd_lo; [lia|]. unfold cb. change (bpow radix2 22) with 4194304. lra. }
  pose proof (fun t => cs_lo _ (abs_rnd_sin t)) as CS.
  set (a := gp_a_f) in *. set (c := c298) in *. set (b := cb) in *. set (x := vx rE) in *. set (y := vy rE) in *. set (z := vz rE) in *.
  repeat ov r Hr. unfold sqrtc. match goal with |- context [Rlt_dec ?d 0] => destruct (Rlt_dec d 0) end; [reflexivity|]. cbn [bind].
  repeat ov r Hr. unfold Rdivc at 1 4. match goal with |- context [Req_EM_T ?d 0] => destruct (Req_EM_T d 0) end; [reflexivity|]. cbn [bind].
  repeat ov r Hr. match goal with |- context [Rlt_dec ?d 0] => destruct (Rlt_dec d 0) end; [reflexivity|]. cbn [bind].
  repeat ov r Hr. match goal with |- context [Rlt_dec ?d 0] => destruct (Rlt_dec d 0) end; [reflexivity|]. cbn [bind].
  repeat ov r Hr. repeat oa r Hr. repeat ov r Hr. repeat oa r Hr. repeat ov r Hr.
  match goal with |- context [Rlt_dec ?d 0] => destruct (Rlt_dec d 0) end; [reflexivity|]. cbn [bind].
  repeat ov r Hr. unfold Rdivc. match goal with |- context [Req_EM_T ?d 0] => destruct (Req_EM_T d 0) end; [reflexivity|]. cbn [bind].
  repeat ov r Hr. match goal with |- context [Req_EM_T ?d 0] => destruct (Req_EM_T d 0) end; [reflexivity|]. cbn [bind].
  repeat ov r Hr.
  match goal with |- context [fmodc ?s ?t] => rewrite !(fmodc_small s t) by tauto end. cbn [bind]. repeat ov r Hr. reflexivity.
Qed.
Lemma frames_case : Rabs 6378137 <= bpow radix2 400 /\ bpow radix2 (-480) <= norm (V3 0 0 1) /\ bpow radix2 (-100) <= Rabs (rnd64 (cos 0)) /\
  bpow radix2 (-50) <= Rabs (7 / 100000) <= bpow radix2 50 /\ bpow radix2 (-10) <= Rabs (98 / 10) <= bpow radix2 10.
Proof.
  assert (B : forall k, (0 <= k)%Z -> 1 <= bpow radix2 k) by (intros k K; change 1 with (bpow radix2 0); now apply bpow_le).
  assert (S : forall k, (k <= 0)%Z -> bpow radix2 k <= 1) by (intros k K; change 1 with (bpow radix2 0); now apply bpow_le).
  split; [|split; [|split; [|split]]].
  - rewrite Rabs_pos_eq by lra. apply Rle_trans with (bpow radix2 23); [change (bpow radix2 23) with 8388608; lra|apply bpow_le; lia].
  - replace (norm (V3 0 0 1)) with 1 by (unfold norm, dot; cbn; replace (0 * 0 + 0 * 0 + 1 * 1) with 1 by ring; now rewrite sqrt_1). apply S. lia.
  - rewrite cos_0. change 1 with (bpow radix2 0). rewrite rnd64_bpow by lia. rewrite Rabs_pos_eq by apply bpow_ge_0. apply bpow_le. lia.
  - rewrite Rabs_pos_eq by lra. split; [apply Rle_trans with (bpow radix2 (-20)); [apply bpow_le; lia|change (bpow radix2 (-20)) with (/ 1048576); lra]|].
    specialize (B 50%Z ltac:(lia)). lra.
  - rewrite Rabs_pos_eq by lra. specialize (S (-10)%Z ltac:(lia)). change (bpow radix2 10) with 1024. lra.
Qed.
