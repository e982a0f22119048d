(** A prediction that overflows. *)
From Coq Require Import Reals ZArith Lra Lia.
From Flocq Require Import Core.
From mathcomp Require Import all_ssreflect all_algebra.
From Verif Require Import Base BaseMx ModelDate ModelFilterFloat SpecOverflow ProofMx ProofOverflow ProofOverflow2 ProofOverflow4 ProofOverflow5.
Set Implicit Arguments.
Unset Strict Implicit.
Unset Printing Implicit Defensive.
Import GRing.Theory.
Local Open Scope ring_scope.

Lemma dot1 r (a b : 'I_1 -> R) : @dot_loop r 1 a b = r (Rplus 0 (r (Rmult (a ord0) (b ord0)))).
Proof. rewrite /=. by rewrite (_ : ord_max = ord0) //; apply: val_inj. Qed.
Lemma mul1 r (A B : 'M[R]_1) : mul_f (@dot_loop r) A B ord0 ord0 = r (Rplus 0 (r (Rmult (A ord0 ord0) (B ord0 ord0)))).
Proof. by rewrite mxE dot1. Qed.
Lemma pred1 r (x : 'cV[R]_1) (P Phi Q : 'M[R]_1) : snd (filterPredict_f r (@dot_loop r) x P Phi Q) ord0 ord0 =
  r (Rplus (r (Rplus 0 (r (Rmult (r (Rplus 0 (r (Rmult (Phi ord0 ord0) (P ord0 ord0))))) (Phi ord0 ord0))))) (Q ord0 ord0)).
Proof. by rewrite /= mxE mxE mul1 mul1 mxE. Qed.
Lemma large_prediction : exists r, binary64_in_range r /\
  let M : 'M[R]_1 := \matrix_(i, j) bpow radix2 342 in
  snd (filterPredict_f r (@dot_loop r) (0 : 'cV[R]_1) M M 0) = 0 /\
  snd (filterPredict_f rnd64 (@dot_loop rnd64) (0 : 'cV[R]_1) M M 0) <> 0.
Proof.
  exists drop. split; first exact: drop_ok. have E k l : Rmult (bpow radix2 k) (bpow radix2 l) = bpow radix2 (Z.add k l) by rewrite bpow_plus.
  split.
  - have D k : Z.le (Zneg 1074) k -> Z.le k 1023 -> drop (bpow radix2 k) = bpow radix2 k.
    { move=> K1 K2. rewrite (same drop drop_ok k) //; first exact: rnd64_bpow. rewrite /bd Rabs_pos_eq; [exact: Rle_refl|exact: bpow_ge_0]. }
    apply/matrixP=> i j. rewrite !ord1 pred1 !mxE E. rewrite (D (Z.add 342 342)) // !Rplus_0_l (D (Z.add 342 342)) // E drop_big //.
    rewrite drop_0. toR. by rewrite Rplus_0_l drop_0.
  - move/matrixP=> /(_ ord0 ord0). rewrite pred1 !mxE E. rewrite !Rplus_0_l rnd64_bpow; last lia. rewrite rnd64_bpow; last lia.
    rewrite E rnd64_bpow; last lia. rewrite rnd64_bpow; last lia. toR. rewrite Rplus_0_r rnd64_bpow; last lia.
    move=> H. by have := bpow_gt_0 radix2 (Z.add (Z.add 342 342) 342); rewrite H => /Rlt_irrefl.
Qed.
Lemma prediction_case : Z.le (Z.of_nat 8) (Z.pow 2 20) /\ forall i j, Rle (Rabs ((1%:M : 'M[R]_8) i j)) (bpow radix2 290).
Proof.
  split; first by []. move=> i j. rewrite mxE. case: (i == j).
  - rewrite mulr1n. apply: (@bd_w 0 290 R1); [exact: bd_1|lia].
  - rewrite mulr0n. exact: (bd_0 290).
Qed.
