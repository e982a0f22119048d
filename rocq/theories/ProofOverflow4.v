(** No overflow in the prediction of a filter of any size. *)
From Coq Require Import Reals ZArith Lra Lia Psatz.
From Flocq Require Import Core.
From mathcomp Require Import all_ssreflect all_algebra.
From Verif Require Import Base BaseMx ModelDate ModelFilterFloat SpecOverflow ProofRnd ProofMx ProofOverflow.
Set Implicit Arguments.
Unset Strict Implicit.
Unset Printing Implicit Defensive.
Import GRing.Theory.
Local Open Scope ring_scope.
Local Arguments Z.pow : simpl never.


Lemma nat_sum k e x y : Z.le (Zneg 1000) e /\ Z.le e 900 -> Z.le (Z.of_nat k.+1) (Z.pow 2 30) ->
  Rle (Rabs x) (Rmult (INR k) (bpow radix2 e)) -> bd e y -> Rle (Rabs (rnd64 (Rplus x (rnd64 y)))) (Rmult (INR k.+1) (bpow radix2 e)) /\
  bd (Z.add e 31) (Rplus x (rnd64 y)).
Proof.
  move=> He Hk Hx Hy. have Hy' := @bd_rnd e y ltac:(lia) Hy.
  have T : Rle (Rabs (Rplus x (rnd64 y))) (Rmult (INR k.+1) (bpow radix2 e)).
  { apply: Rle_trans (Rabs_triang _ _) _. rewrite S_INR Rmult_plus_distr_r Rmult_1_l. apply: Rplus_le_compat => //. }
  split.
  - move: T. rewrite INR_IZR_INZ => /Rabs_le_inv [T1 T2]. have E := @rnd64_exact (Z.of_nat k.+1) e ltac:(lia) ltac:(lia).
    apply: Rabs_le. split.
    + rewrite -E -ProofDate.rnd64_opp. exact: ProofDate.rnd64_le.
    + rewrite -E. exact: ProofDate.rnd64_le.
  - rewrite /bd. apply: Rle_trans T _. have -> : Z.add e 31 = Z.add 31 e by lia. rewrite bpow_plus. apply: Rmult_le_compat_r; first exact: bpow_ge_0.
    rewrite INR_IZR_INZ. change (bpow radix2 31) with (IZR (Z.pow 2 31)). apply: IZR_le. lia.
Qed.
Lemma loop_same r p q : binary64_in_range r -> Z.le (Zneg 1000) (Z.add p q) /\ Z.le (Z.add p q) 900 -> forall k (a b : 'I_k -> R), Z.le (Z.of_nat k) (Z.pow 2 30) ->
  (forall i, bd p (a i)) -> (forall i, bd q (b i)) ->
  @dot_loop r k a b = @dot_loop rnd64 k a b /\ Rle (Rabs (@dot_loop rnd64 k a b)) (Rmult (INR k) (bpow radix2 (Z.add p q))).
Proof.
  move=> Hr K. elim=> [|k IH] a b Hk Ha Hb.
  - split=> //=. rewrite Rabs_R0 Rmult_0_l. exact: Rle_refl.
  - have [|i|i|E B] := IH (fun i => a (widen_ord (leqnSn k) i)) (fun i => b (widen_ord (leqnSn k) i)); [lia|exact: Ha|exact: Hb|].
    rewrite /= E. have Y := bd_mul _ _ _ _ (Ha ord_max) (Hb ord_max).
    have [S1 S2] := @nat_sum k (Z.add p q) _ _ K Hk B Y.
    rewrite (same r Hr _ _ Y); last lia. rewrite (same r Hr _ _ S2); last lia. by split.
Qed.
Lemma INR_bd k : Z.le (Z.of_nat k) (Z.pow 2 20) -> Rle (INR k) (bpow radix2 20).
Proof. move=> H. rewrite INR_IZR_INZ. change (bpow radix2 20) with (IZR (Z.pow 2 20)). exact: IZR_le. Qed.
Lemma mul_same r p q m k n (A : 'M[R]_(m, k)) (B : 'M[R]_(k, n)) : binary64_in_range r -> Z.le (Zneg 1000) (Z.add p q) /\ Z.le (Z.add p q) 900 -> Z.le (Z.of_nat k) (Z.pow 2 20) ->
  (forall i j, bd p (A i j)) -> (forall i j, bd q (B i j)) ->
  mul_f (@dot_loop r) A B = mul_f (@dot_loop rnd64) A B /\ forall i j, bd (Z.add 20 (Z.add p q)) (mul_f (@dot_loop rnd64) A B i j).
Proof.
  move=> Hr K Hk HA HB. split.
  - apply/matrixP=> i j. rewrite !mxE. have [E _] := @loop_same r p q Hr K k (fun l => A i l) (fun l => B l j) ltac:(lia) (HA i) (fun l => HB l j). exact: E.
  - move=> i j. rewrite mxE. have [_ S] := @loop_same r p q Hr K k (fun l => A i l) (fun l => B l j) ltac:(lia) (HA i) (fun l => HB l j).
    rewrite /bd bpow_plus. apply: Rle_trans S _. apply: Rmult_le_compat_r; [exact: bpow_ge_0|exact: INR_bd].
Qed.
Lemma predict_same r n (x : 'cV[R]_n) (P Phi Q : 'M[R]_n) : binary64_in_range r -> Z.le (Z.of_nat n) (Z.pow 2 20) ->
  (forall i, bd 290 (x i ord0)) -> (forall i j, bd 290 (P i j)) -> (forall i j, bd 290 (Phi i j)) -> (forall i j, bd 290 (Q i j)) ->
  filterPredict_f r (@dot_loop r) x P Phi Q = filterPredict_f rnd64 (@dot_loop rnd64) x P Phi Q.
Proof.
  move=> Hr Hn Hx HP HF HQ. rewrite /filterPredict_f.
  have [E1 _] := @mul_same r 290 290 n n 1 Phi x Hr ltac:(lia) Hn HF (fun i j => ltac:(rewrite (ord1 j); exact: Hx)).
  have [E2 B2] := @mul_same r 290 290 n n n Phi P Hr ltac:(lia) Hn HF HP.
  have [E3 B3] := @mul_same r 600 290 n n n (mul_f (@dot_loop rnd64) Phi P) Phi^T Hr ltac:(lia) Hn B2 (fun i j => ltac:(rewrite mxE; exact: HF)).
  rewrite E1 E2 E3. congr pair. apply/matrixP=> i j. rewrite mxE [RHS]mxE. apply: (same r Hr 912); last lia.
  rewrite mxE. toR. apply: (sum_w 910 290); [exact: B3|exact: HQ|lia|lia].
Qed.
