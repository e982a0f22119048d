(** Error analysis of the error dynamics: the entries. *)
From Coq Require Import Reals ZArith List Lra Lia Psatz.
From Flocq Require Import Core.
From Verif Require Import Base BaseVec ModelGravity ModelStrapdownFloat ModelFramesFloat ModelGravityFloat SpecFloatOps ProofVec ProofStrapdownFloat ProofFramesFloat ProofGravityFloat.
Open Scope R_scope.

Section Ent.
Variable F : FloatOps. Hypothesis HF : float_ok F.
Variable pow2 : R -> R. Hypothesis HP : pow2_ok pow2.
Let r := frnd F.
Ltac bnd := lazymatch goal with
  | H : ap ?x ?y _ _ |- ap ?x ?y _ _ => exact H
  | |- ap (frnd _ _) _ _ _ => eapply (ap_rnd F HF); bnd
  | |- ap (r _) _ _ _ => eapply (ap_rnd F HF); bnd
  | |- ap (pow2 _) (_ * _) _ _ => eapply (ap_pow2 pow2 HP); [bnd|num]
  | |- ap (_ * _) (_ * _) _ _ => eapply ap_mul; [bnd|bnd]
  | |- ap (_ + _) (_ + _) _ _ => eapply ap_add; [bnd|bnd]
  | |- ap (_ - _) (_ - _) _ _ => eapply ap_sub; [bnd|bnd]
  | |- ap (- _) (- _) _ _ => eapply ap_opp; bnd
  | |- ap ?x ?x _ _ => apply ap_const; lra end.
Ltac au := eapply ap_le; [bnd| |]; num.
Variables a1 a2 a3 latDot lonDot hDot latDDot lonDDot G33 : R.
Hypothesis L1 : ap a1 a1 0 1000. Hypothesis L2 : ap a2 a2 0 1000. Hypothesis L3 : ap a3 a3 0 1000.
Hypothesis L4 : ap latDot latDot 0 (1 / 1000). Hypothesis L5 : ap lonDot lonDot 0 (1 / 100). Hypothesis L6 : ap hDot hDot 0 1200.
Hypothesis L7 : ap latDDot latDDot 0 (1 / 1000). Hypothesis L8 : ap lonDDot lonDDot 0 (1 / 1000). Hypothesis L9 : ap G33 G33 0 1.
Variables sl' sl cl' cl tl' tl s2' s2 c2' c2 : R.
Hypothesis T1 : ap sl' sl 2 1. Hypothesis T2 : ap cl' cl 2 1. Hypothesis T3 : ap tl' tl 30 15.
Hypothesis T4 : ap s2' s2 6 1. Hypothesis T5 : ap c2' c2 6 1. Hypothesis T6 : 7 / 100 <= cl.
Variables R' Ra : R.
Hypothesis TR : ap R' Ra 235000000 6750000. Hypothesis TR0 : 6180000 <= Ra.
Let l1' := r (lonDot + gp_wE_f F). Let l1 := lonDot + gp_wE.
Let l2' := r (lonDot + r (2 * gp_wE_f F)). Let l2 := lonDot + 2 * gp_wE.
Lemma A1 : ap l1' l1 (11 / 1000) (101 / 10000).
Proof. pose proof (ap_wE F HF) as W. unfold l1', l1. au. Qed.
Lemma A2 : ap l2' l2 (12 / 1000) (102 / 10000).
Proof. pose proof (ap_wE F HF) as W. unfold l2', l2. au. Qed.
Lemma rcl : ap (r (R' * cl')) (Ra * cl) 256000000 6750000 /\ 432000 <= Ra * cl.
Proof. split; [au|]. apply Rle_trans with (6180000 * (7 / 100)); [lra|]. apply Rmult_le_compat; lra. Qed.
Lemma dv x y k M : ap x y k M -> R' <> 0 /\ ap (r (x / R')) (y / Ra) ((k + M / 6000000 * 235000000) * (1003 / 1000 / 6000000) + M / 6000000 + e20) (M / 6000000).
Proof.
  intros A. destruct (ap_pos _ _ _ _ A) as (P1 & P2).
  destruct (ap_div _ _ _ _ _ _ _ _ 6000000 A TR) as (P & Q); [lra|rewrite Rabs_right; lra|num|]. split; [exact P|].
  eapply ap_le; [apply (ap_rnd F HF); exact Q| |apply Rle_refl].
  unfold e15, e20. nra.
Qed.
Lemma dc x y k M : ap x y k M -> r (R' * cl') <> 0 /\ ap (r (x / r (R' * cl'))) (y / (Ra * cl)) ((k + M / 430000 * 256000000) * (1003 / 1000 / 430000) + M / 430000 + e20) (M / 430000).
Proof.
  intros A. destruct (ap_pos _ _ _ _ A) as (P1 & P2). destruct rcl as (C & C0).
  destruct (ap_div _ _ _ _ _ _ _ _ 430000 A C) as (P & Q); [lra|rewrite Rabs_right; lra|num|]. split; [exact P|].
  eapply ap_le; [apply (ap_rnd F HF); exact Q| |apply Rle_refl].
  unfold e15, e20. nra.
Qed.
Lemma R0' : R' <> 0. Proof. exact (proj1 (dv _ _ _ _ L1)). Qed.
Definition two (x y : R) : Prop := Rabs (x - y) <= 2 * u64.
Lemma ap_two x y k M : ap x y k M -> k <= 2 -> two x y.
Proof. intros (A & _) K. eapply Rle_trans; [exact A|]. apply Rmult_le_compat_r; [pose proof u64_bounds; lra|exact K]. Qed.
Ltac at2 := eapply ap_two; [bnd|num].
Ltac dv2 H := match type of H with _ /\ ap _ _ _ _ => eapply ap_two; [exact (proj2 H)|num] end.
Lemma row_a : two (r (- l1' * sl')) (- l1 * sl) /\ two (r (l1' * sl')) (l1 * sl) /\ two (r (l1' * cl')) (l1 * cl) /\ two (r (- l1' * cl')) (- l1 * cl) /\ two cl' cl /\ two (- sl') (- sl).
Proof. pose proof A1 as B. clearbody l1 l1'. repeat split; at2. Qed.
Lemma row_b : two (r (- a3 / R')) (- a3 / Ra) /\ two (r (a2 / R')) (a2 / Ra) /\ two (r (r (- 2 * hDot) / R')) (- 2 * hDot / Ra) /\
  two (r (- l1' * s2')) (- l1 * s2) /\ two (r (r (- 2 * latDot) / R')) (- 2 * latDot / Ra) /\ two (r (r (- lonDot * l2') * c2')) (- lonDot * l2 * c2) /\
  two (r (r (latDDot + r (r (r (0.5 * lonDot) * l2') * s2')) / - R')) ((latDDot + 0.5 * lonDot * l2 * s2) / - Ra).
Proof.
  pose proof A1 as B. pose proof A2 as C. clearbody l1 l1' l2 l2'. assert (M2 : ap (- 2) (- 2) 0 2) by (apply ap_exact; rewrite Rabs_left; lra).
  split; [dv2 (dv _ _ _ _ (ap_opp _ _ _ _ L3))|]. split; [dv2 (dv _ _ _ _ L2)|].
  split. { assert (Q : ap (r (- 2 * hDot)) (- 2 * hDot) 2401 2400) by au. dv2 (dv _ _ _ _ Q). }
  split; [at2|]. split. { assert (Q : ap (r (- 2 * latDot)) (- 2 * latDot) (3 / 1000) (2 / 1000)) by au. dv2 (dv _ _ _ _ Q). }
  split; [at2|].
  assert (Q : ap (r (latDDot + r (r (r (0.5 * lonDot) * l2') * s2'))) (latDDot + 0.5 * lonDot * l2 * s2) (1 / 100) (11 / 10000)) by au.
  pose proof R0' as RN. replace (r (latDDot + r (r (r (0.5 * lonDot) * l2') * s2')) / - R') with (- r (latDDot + r (r (r (0.5 * lonDot) * l2') * s2')) / R') by (field; exact RN).
  replace ((latDDot + 0.5 * lonDot * l2 * s2) / - Ra) with (- (latDDot + 0.5 * lonDot * l2 * s2) / Ra) by (field; lra).
  dv2 (dv _ _ _ _ (ap_opp _ _ _ _ Q)).
Qed.
Lemma row_c : two (r (a3 / r (R' * cl'))) (a3 / (Ra * cl)) /\ two (r (- a1 / r (R' * cl'))) (- a1 / (Ra * cl)) /\ two (r (r (2 * l1') * tl')) (2 * l1 * tl) /\
  two (r (2 * r (r (latDot * tl') - r (hDot / R')))) (2 * (latDot * tl - hDot / Ra)) /\ two (r (r (- 2 * l1') / R')) (- 2 * l1 / Ra) /\
  two (r (r (r (2 * l1') * r (latDot + r (r (hDot * tl') / R'))) + r (lonDDot * tl'))) (2 * l1 * (latDot + hDot * tl / Ra) + lonDDot * tl) /\
  two (r (r (r (r (2 * latDot) * tl') - lonDDot) / R')) ((2 * latDot * tl - lonDDot) / Ra).
Proof.
  pose proof A1 as B. pose proof A2 as C. clearbody l1 l1' l2 l2'. assert (M2 : ap (- 2) (- 2) 0 2) by (apply ap_exact; rewrite Rabs_left; lra).
  split; [dv2 (dc _ _ _ _ L3)|]. split; [dv2 (dc _ _ _ _ (ap_opp _ _ _ _ L1))|]. split; [at2|].
  split. { destruct (dv _ _ _ _ L6) as (_ & Q). assert (Q' : ap (r (hDot / R')) (hDot / Ra) (1 / 100) (21 / 100000)) by (eapply ap_le; [exact Q|num|num]). clear Q. at2. }
  split. { assert (Q : ap (r (- 2 * l1')) (- 2 * l1) (5 / 100) (21 / 1000)) by au. dv2 (dv _ _ _ _ Q). }
  split. { assert (Q : ap (r (hDot * tl')) (hDot * tl) 54100 18000) by au. destruct (dv _ _ _ _ Q) as (_ & Q1).
    assert (Q' : ap (r (r (hDot * tl') / R')) (hDot * tl / Ra) (13 / 100) (31 / 10000)) by (eapply ap_le; [exact Q1|num|num]). clear Q Q1. at2. }
  assert (Q : ap (r (r (r (2 * latDot) * tl') - lonDDot)) (2 * latDot * tl - lonDDot) (2 / 10) (4 / 100)) by au. dv2 (dv _ _ _ _ Q).
Qed.
Definition big (x y : R) : Prop := Rabs (x - y) <= 7000000 * u64.
Lemma ap_big x y k M : ap x y k M -> k <= 7000000 -> big x y.
Proof. intros (A & _) K. eapply Rle_trans; [exact A|]. apply Rmult_le_compat_r; [pose proof u64_bounds; lra|exact K]. Qed.
Ltac atb := eapply ap_big; [bnd|num].
Lemma row_d : big (r (r (2 * R') * latDot)) (2 * Ra * latDot) /\ big (r (r (r (2 * R') * l1') * pow2 cl')) (2 * Ra * l1 * (cl * cl)) /\
  big (r (r (r (- R' * lonDot) * l2') * s2')) (- Ra * lonDot * l2 * s2) /\
  big (r (r (r (latDot * latDot) + r (r (lonDot * l2') * pow2 cl')) + G33)) (latDot * latDot + lonDot * l2 * (cl * cl) + G33).
Proof. pose proof A1 as B. pose proof A2 as C. clearbody l1 l1' l2 l2'. repeat split; atb. Qed.
End Ent.
