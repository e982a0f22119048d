(** No overflow in the mean and the covariance of sigma points. *)
From Coq Require Import Reals ZArith Lra Lia Psatz.
From Flocq Require Import Core.
From mathcomp Require Import all_ssreflect all_algebra.
From Verif Require Import Base BaseMx ModelDate ModelFilterFloat ModelUkfFloat SpecOverflow ProofRnd ProofMx ProofOverflow ProofOverflow4.
Set Implicit Arguments.
Unset Strict Implicit.
Unset Printing Implicit Defensive.
Import GRing.Theory.
Local Open Scope ring_scope.

Lemma acc_step k e x y : Z.le (Zneg 1000) e /\ Z.le e 900 -> Z.le (Z.of_nat k.+1) (Z.pow 2 30) ->
  Rle (Rabs x) (Rmult (INR k) (bpow radix2 e)) -> bd e y -> Rle (Rabs (rnd64 (Rplus x y))) (Rmult (INR k.+1) (bpow radix2 e)) /\
  bd (Z.add e 31) (Rplus x y).
Proof.
  move=> He Hk Hx Hy.
  have T : Rle (Rabs (Rplus x y)) (Rmult (INR k.+1) (bpow radix2 e)).
  { apply: Rle_trans (Rabs_triang _ _) _. rewrite S_INR Rmult_plus_distr_r Rmult_1_l. apply: Rplus_le_compat => //. }
  split.
  - move: T. rewrite INR_IZR_INZ => /Rabs_le_inv [T1 T2]. have E := @rnd64_exact (Z.of_nat k.+1) e ltac:(lia) ltac:(lia).
    apply: Rabs_le. split.
    + rewrite -E -ProofDate.rnd64_opp. exact: ProofDate.rnd64_le.
    + rewrite -E. exact: ProofDate.rnd64_le.
  - rewrite /bd. apply: Rle_trans T _. have -> : Z.add e 31 = Z.add 31 e by lia. rewrite bpow_plus. apply: Rmult_le_compat_r; first exact: bpow_ge_0.
    rewrite INR_IZR_INZ. change (bpow radix2 31) with (IZR (Z.pow 2 31)). apply: IZR_le. lia.
Qed.
Lemma fold_same r e (I : Type) (t : I -> R) : binary64_in_range r -> Z.le (Zneg 1000) e /\ Z.le e 900 -> (forall i, bd e (t i)) ->
  forall (l : seq I) j c, Z.le (Z.add (Z.of_nat j) (Z.of_nat (size l))) (Z.pow 2 30) -> Rle (Rabs c) (Rmult (INR j) (bpow radix2 e)) ->
  foldl (fun s i => r (Rplus s (t i))) c l = foldl (fun s i => rnd64 (Rplus s (t i))) c l /\
  Rle (Rabs (foldl (fun s i => rnd64 (Rplus s (t i))) c l)) (Rmult (INR (j + size l)) (bpow radix2 e)).
Proof.
  move=> Hr K Ht. elim=> [|i l IH] j c Hj Hc /=; first by rewrite addn0.
  move: Hj => /= Hj. have [S1 S2] := @acc_step j e c (t i) K ltac:(lia) Hc (Ht i).
  rewrite (same r Hr _ _ S2); last lia. have [|E B] := IH j.+1 _ _ S1; first lia. rewrite E. split=> //. by rewrite addnS -addSn.
Qed.
Lemma acc_same r e k c (t t' : 'I_k -> R) : binary64_in_range r -> Z.le (Zneg 1000) e /\ Z.le e 900 -> Z.le (Z.of_nat k) (Z.pow 2 20) ->
  t =1 t' -> (forall i, bd e (t i)) -> bd e c -> acc_f r c t = acc_f rnd64 c t' /\ bd (Z.add 21 e) (acc_f rnd64 c t').
Proof.
  move=> Hr K Hk Et Ht Hc.
  have [||E B] := @fold_same r e _ t Hr K Ht (enum 'I_k) 1 c.
  - rewrite size_enum_ord. lia.
  - rewrite Rmult_1_l. exact: Hc.
  have F : acc_f rnd64 c t' = foldl (fun s i => rnd64 (Rplus s (t i))) c (enum 'I_k).
  { rewrite /acc_f. elim: (enum 'I_k) c {Hc E B} => //= i l IH c. by rewrite IH Et. }
  rewrite F. split=> //. rewrite /bd bpow_plus. apply: Rle_trans B _. apply: Rmult_le_compat_r; first exact: bpow_ge_0.
  rewrite size_enum_ord INR_IZR_INZ. change (bpow radix2 21) with (IZR (Z.pow 2 21)). apply: IZR_le. rewrite add1n. lia.
Qed.
Lemma ukf_same r n k (W : 'cV[R]_k) (Y : 'M[R]_(n, k)) (Q : 'M[R]_n) : binary64_in_range r -> Z.le (Z.of_nat k) (Z.pow 2 20) ->
  (forall i, bd 100 (W i ord0)) -> (forall i j, bd 100 (Y i j)) -> (forall i j, bd 500 (Q i j)) ->
  filterUkfPredict_f r W Y Q = filterUkfPredict_f rnd64 W Y Q.
Proof.
  move=> Hr Hk HW HY HQ. rewrite /filterUkfPredict_f.
  have P a i : bd 200 (Rmult (W i ord0) (Y a i)) by exact: (bd_mul 100 100).
  have PE a i : r (Rmult (W i ord0) (Y a i)) = rnd64 (Rmult (W i ord0) (Y a i)) by apply: (same r Hr 200); [exact: P|lia].
  have PB a i : bd 200 (r (Rmult (W i ord0) (Y a i))) by rewrite PE; apply: bd_rnd; [lia|exact: P].
  have M a : acc_f r R0 (fun i => r (Rmult (W i ord0) (Y a i))) = acc_f rnd64 R0 (fun i => rnd64 (Rmult (W i ord0) (Y a i))) /\ bd 221 (acc_f rnd64 R0 (fun i => rnd64 (Rmult (W i ord0) (Y a i)))).
  { apply: (@acc_same r 200 k R0 (fun i => r (Rmult (W i ord0) (Y a i))) (fun i => rnd64 (Rmult (W i ord0) (Y a i))) Hr ltac:(lia) Hk (PE a) (PB a) (bd_0 200)). }
  have E : mean_f r W Y = mean_f rnd64 W Y by apply/matrixP=> a b; rewrite !mxE; have [-> _] := M a.
  rewrite E. set x := mean_f rnd64 W Y. have X a : bd 221 (x a ord0) by rewrite mxE; have [_] := M a.
  clearbody x. congr pair. apply/matrixP=> p q. rewrite !mxE.
  have D a i : bd 222 (Rminus (Y a i) (x a ord0)) by apply: (bd_sub 221); [apply: (bd_w 100); [exact: HY|lia]|exact: X].
  have DE a i : r (Rminus (Y a i) (x a ord0)) = rnd64 (Rminus (Y a i) (x a ord0)) by apply: (same r Hr 222); [exact: D|lia].
  have DB a i : bd 222 (rnd64 (Rminus (Y a i) (x a ord0))) by apply: bd_rnd; [lia|exact: D].
  have T1 i : bd 322 (Rmult (W i ord0) (rnd64 (Rminus (Y p i) (x p ord0)))) by apply: (bd_mul 100 222); [exact: HW|exact: DB].
  have T1E i : r (Rmult (W i ord0) (rnd64 (Rminus (Y p i) (x p ord0)))) = rnd64 (Rmult (W i ord0) (rnd64 (Rminus (Y p i) (x p ord0)))) by apply: (same r Hr 322); [exact: T1|lia].
  have T2 i : bd 544 (Rmult (rnd64 (Rmult (W i ord0) (rnd64 (Rminus (Y p i) (x p ord0))))) (rnd64 (Rminus (Y q i) (x q ord0)))).
  { apply: (bd_mul 322 222); [apply: bd_rnd; [lia|exact: T1]|exact: DB]. }
  have TE i : r (Rmult (r (Rmult (W i ord0) (r (Rminus (Y p i) (x p ord0))))) (r (Rminus (Y q i) (x q ord0)))) =
    rnd64 (Rmult (rnd64 (Rmult (W i ord0) (rnd64 (Rminus (Y p i) (x p ord0))))) (rnd64 (Rminus (Y q i) (x q ord0)))).
  { rewrite !DE T1E. apply: (same r Hr 544); [exact: T2|lia]. }
  have TB i : bd 544 (r (Rmult (r (Rmult (W i ord0) (r (Rminus (Y p i) (x p ord0))))) (r (Rminus (Y q i) (x q ord0))))) by rewrite TE; apply: bd_rnd; [lia|exact: T2].
  have QB : bd 544 (Q p q) by apply: (bd_w 500); [exact: HQ|lia].
  by have [-> _] := @acc_same r 544 k (Q p q) _ _ Hr ltac:(lia) Hk TE TB QB.
Qed.
Lemma ukf_case : Z.le (Z.of_nat 2) (Z.pow 2 20) /\ forall i, Rle (Rabs ((\col_(i < 2) Rdiv 1 2) i ord0)) (bpow radix2 100).
Proof.
  split; first lia. move=> i. rewrite mxE Rabs_pos_eq; last lra. apply: (Rle_trans _ (bpow radix2 0)); last by apply: bpow_le; lia.
  have -> : bpow radix2 0 = IZR 1 by []. lra.
Qed.
