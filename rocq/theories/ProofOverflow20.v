(** No overflow in linear least squares of any size. *)
From Coq Require Import Reals ZArith Lra Lia Psatz.
From Flocq Require Import Core.
From mathcomp Require Import all_ssreflect all_algebra.
From Verif Require Import Base BaseMx ModelDate ModelFilterFloat ModelBlsFloat SpecOverflow ProofRnd ProofMx ProofOverflow ProofOverflow2 ProofOverflow4 ProofOverflow12 ProofOverflow15.
Set Implicit Arguments.
Unset Strict Implicit.
Unset Printing Implicit Defensive.
Import GRing.Theory.
Local Open Scope ring_scope.
Local Arguments Z.pow : simpl never.

Section B.
Variables (r : R -> R) (m n : nat) (y : 'cV[R]_m) (H : 'M[R]_(m, n)) (W : 'M[R]_m).
Hypotheses (Hr : binary64_in_range r) (Hn : Z.le (Z.of_nat n) (Z.pow 2 20)) (Hm : Z.le (Z.of_nat m) (Z.pow 2 20)).

Lemma cost_same (x : 'cV[R]_n) : (forall i, bd 200 (y i ord0)) -> (forall i j, bd 200 (H i j)) -> (forall i, bd 200 (x i ord0)) ->
  cost_f r (@dot_loop r) y H x = cost_f rnd64 (@dot_loop rnd64) y H x.
Proof.
  move=> Hy HH Hx. rewrite /cost_f.
  have [E1 B1] := @mul_same r 200 200 m n 1 H x Hr ltac:(lia) Hn HH (fun i j => ltac:(rewrite (ord1 j); exact: Hx)).
  have BN (i : 'I_m) (j : 'I_1) : bd 421 ((y - mul_f (@dot_loop rnd64) H x : 'cV[R]_m) i j).
  { rewrite !mxE (ord1 j). toR. apply: (sum_w 200 420); [exact: Hy|apply: bd_opp; have := B1 i ord0; by rewrite mxE|lia|lia]. }
  have [E2 B2] := @map_same r 421 m 1 _ Hr ltac:(lia) BN. rewrite E1 E2. set e := map_mx rnd64 _ in B2 *. clearbody e.
  have [E3 B3] := @loop_same r 421 421 Hr ltac:(lia) m (fun i => e i ord0) (fun i => e i ord0) ltac:(lia) (fun i => B2 i ord0) (fun i => B2 i ord0).
  rewrite E3. apply: (same r Hr 862); [|lia]. refine (bd_mul 0 862 _ _ _ _).
  - rewrite /bd Rabs_pos_eq; [|lra]. change (bpow radix2 0) with R1. lra.
  - rewrite /bd. change (bpow radix2 862) with (bpow radix2 (Z.add 20 (Z.add 421 421))). rewrite bpow_plus. apply: Rle_trans B3 _. apply: Rmult_le_compat_r; [exact: bpow_ge_0|exact: INR_bd].
Qed.

Lemma normal_same k : Z.le 0 k /\ Z.le k 200 -> (forall i, bd k (y i ord0)) -> (forall i j, bd k (H i j)) ->
  normal_f (@dot_loop r) H = normal_f (@dot_loop rnd64) H /\ rhs_f (@dot_loop r) H y = rhs_f (@dot_loop rnd64) H y /\
  (forall i, bd (Z.add 20 (Z.add k k)) (rhs_f (@dot_loop rnd64) H y i ord0)).
Proof.
  move=> K Hy HH. have HT (i : 'I_n) (j : 'I_m) : bd k (H^T i j) by rewrite mxE; exact: HH.
  have [E1 _] := @mul_same r k k n m n H^T H Hr ltac:(lia) Hm HT HH.
  have [E2 B2] := @mul_same r k k n m 1 H^T y Hr ltac:(lia) Hm HT (fun i j => ltac:(rewrite (ord1 j); exact: Hy)).
  split; [exact: E1|split; [exact: E2|move=> i; exact: B2]].
Qed.
Lemma wnormal_same k : Z.le 0 k /\ Z.le k 200 -> (forall i, bd k (y i ord0)) -> (forall i j, bd k (H i j)) -> (forall i j, bd k (W i j)) ->
  wnormal_f (@dot_loop r) H W = wnormal_f (@dot_loop rnd64) H W /\ wrhs_f (@dot_loop r) H W y = wrhs_f (@dot_loop rnd64) H W y /\
  (forall i, bd (Z.add 20 (Z.add (Z.add 20 (Z.add k k)) k)) (wrhs_f (@dot_loop rnd64) H W y i ord0)).
Proof.
  move=> K Hy HH HW. have HT (i : 'I_n) (j : 'I_m) : bd k (H^T i j) by rewrite mxE; exact: HH.
  have [E1 B1] := @mul_same r k k n m m H^T W Hr ltac:(lia) Hm HT HW.
  have [E2 _] := @mul_same r (Z.add 20 (Z.add k k)) k n m n _ H Hr ltac:(lia) Hm B1 HH.
  have [E3 B3] := @mul_same r (Z.add 20 (Z.add k k)) k n m 1 _ y Hr ltac:(lia) Hm B1 (fun i j => ltac:(rewrite (ord1 j); exact: Hy)).
  rewrite /wnormal_f /wrhs_f E1. split; [exact: E2|split; [exact: E3|move=> i; exact: B3]].
Qed.

Lemma unweighted_same (solve solve' : 'M[R]_n -> 'cV[R]_n -> outcome 'cV[R]_n) : (forall i, bd 200 (y i ord0)) -> (forall i j, bd 200 (H i j)) ->
  (let A := normal_f (@dot_loop rnd64) H in let b := rhs_f (@dot_loop rnd64) H y in
   solve' A b = solve A b /\ forall x, solve A b = Ret x -> forall i, bd 200 (x i ord0)) ->
  unweighted_f r (@dot_loop r) solve' y H = unweighted_f rnd64 (@dot_loop rnd64) solve y H.
Proof.
  move=> Hy HH [ES HS]. have [E1 [E2 _]] := @normal_same 200 ltac:(lia) Hy HH. rewrite /unweighted_f E1 E2 ES.
  case EV : (solve _ _) => [x| | | |] //=. by rewrite (cost_same Hy HH (HS x EV)).
Qed.
Lemma weighted_same (solve solve' : 'M[R]_n -> 'cV[R]_n -> outcome 'cV[R]_n) : (forall i, bd 200 (y i ord0)) -> (forall i j, bd 200 (H i j)) -> (forall i j, bd 200 (W i j)) ->
  (let A := wnormal_f (@dot_loop rnd64) H W in let b := wrhs_f (@dot_loop rnd64) H W y in
   solve' A b = solve A b /\ forall x, solve A b = Ret x -> forall i, bd 200 (x i ord0)) ->
  weighted_f r (@dot_loop r) solve' y H W = weighted_f rnd64 (@dot_loop rnd64) solve y H W.
Proof.
  move=> Hy HH HW [ES HS]. have [E1 [E2 _]] := @wnormal_same 200 ltac:(lia) Hy HH HW. rewrite /weighted_f E1 E2 ES.
  case EV : (solve _ _) => [x| | | |] //=. by rewrite (cost_same Hy HH (HS x EV)).
Qed.
End B.

Lemma solve1_same r (A : 'M[R]_1) (b : 'cV[R]_1) : binary64_in_range r -> Rle (bpow radix2 (Zneg 40)) (Rabs (A ord0 ord0)) -> (forall i, bd 160 (b i ord0)) ->
  solve1_f r A b = solve1_f rnd64 A b /\ forall x, solve1_f rnd64 A b = Ret x -> forall i, bd 200 (x i ord0).
Proof.
  move=> Hr HA Hb. rewrite /solve1_f /Rdivc. case: Req_EM_T => Z /=; [by split|].
  have B : bd 200 (Rdiv (b ord0 ord0) (A ord0 ord0)).
  { refine (bd_div 160 (Zneg 40) _ _ _ _); [exact: Hb|exact: HA]. }
  rewrite (same r Hr 200 _ B); [|lia]. split=> // x [<-] i. rewrite mxE. apply: bd_rnd; [lia|exact: B].
Qed.
Lemma bd40_200 x : bd 40 x -> bd 200 x. Proof. move=> h. apply: (bd_w _ _ _ h); lia. Qed.
Lemma unweighted1_same r m (y : 'cV[R]_m) (H : 'M[R]_(m, 1)) : binary64_in_range r -> Z.le (Z.of_nat m) (Z.pow 2 20) ->
  (forall i, bd 40 (y i ord0)) -> (forall i j, bd 40 (H i j)) -> Rle (bpow radix2 (Zneg 40)) (Rabs (normal_f (@dot_loop rnd64) H ord0 ord0)) ->
  unweighted_f r (@dot_loop r) (solve1_f r) y H = unweighted_f rnd64 (@dot_loop rnd64) (solve1_f rnd64) y H.
Proof.
  move=> Hr Hm Hy HH HA. have [_ [_ B]] := @normal_same r m 1 y H Hr Hm 40 ltac:(lia) Hy HH.
  apply: unweighted_same => //; [move=> i; exact: bd40_200|move=> i j; exact: bd40_200|].
  apply: solve1_same => // i. apply: (bd_w _ _ _ (B i)); lia.
Qed.
Lemma weighted1_same r m (y : 'cV[R]_m) (H : 'M[R]_(m, 1)) (W : 'M[R]_m) : binary64_in_range r -> Z.le (Z.of_nat m) (Z.pow 2 20) ->
  (forall i, bd 40 (y i ord0)) -> (forall i j, bd 40 (H i j)) -> (forall i j, bd 40 (W i j)) ->
  Rle (bpow radix2 (Zneg 40)) (Rabs (wnormal_f (@dot_loop rnd64) H W ord0 ord0)) ->
  weighted_f r (@dot_loop r) (solve1_f r) y H W = weighted_f rnd64 (@dot_loop rnd64) (solve1_f rnd64) y H W.
Proof.
  move=> Hr Hm Hy HH HW HA. have [_ [_ B]] := @wnormal_same r m 1 y H W Hr Hm 40 ltac:(lia) Hy HH HW.
  apply: weighted_same => //; [move=> i; exact: bd40_200|move=> i j; exact: bd40_200|move=> i j; exact: bd40_200|].
  exact: solve1_same.
Qed.

(** The computed sum of squares is at least each of its terms. *)
Lemma loop_sq_lo : forall k (a : 'I_k -> R), (@dot_loop rnd64 k a a = R0 \/ exists t, @dot_loop rnd64 k a a = rnd64 t) /\
  Rle R0 (@dot_loop rnd64 k a a) /\ forall i, Rle (rnd64 (Rmult (a i) (a i))) (@dot_loop rnd64 k a a).
Proof.
  have Z0 : rnd64 R0 = R0 := rnd64_0.
  elim=> [|k IH] a; first by split; [left|split; [exact: Rle_refl|case]].
  have [F [P L]] := IH (fun i => a (widen_ord (leqnSn k) i)). set s := dot_loop _ _ _ in F P L.
  have E : @dot_loop rnd64 k.+1 a a = rnd64 (Rplus s (rnd64 (Rmult (a ord_max) (a ord_max)))) by [].
  have Q : Rle R0 (rnd64 (Rmult (a ord_max) (a ord_max))) by rewrite -{1}Z0; apply: ProofDate.rnd64_le; nra.
  have S : rnd64 s = s by case: F => [->|[t ->]]; [exact: Z0|exact: rnd64_idem].
  have G1 : Rle s (@dot_loop rnd64 k.+1 a a) by rewrite E -{1}S; apply: ProofDate.rnd64_le; lra.
  have G2 : Rle (rnd64 (Rmult (a ord_max) (a ord_max))) (@dot_loop rnd64 k.+1 a a) by rewrite E -{1}rnd64_idem; apply: ProofDate.rnd64_le; lra.
  split; [right; by eexists|split; [exact: Rle_trans P G1|]]. move=> i. case: (unliftP ord_max i) => [j Ej|Ej].
  - have Ei : i = widen_ord (leqnSn k) j by apply: val_inj; rewrite Ej; exact: lift_max.
    rewrite Ei. exact: Rle_trans (L j) G1.
  - by rewrite Ej.
Qed.
Lemma unweighted1_same' r m (y : 'cV[R]_m) (H : 'M[R]_(m, 1)) : binary64_in_range r -> Z.le (Z.of_nat m) (Z.pow 2 20) ->
  (forall i, bd 40 (y i ord0)) -> (forall i j, bd 40 (H i j)) -> (exists i, Rle (bpow radix2 (Zneg 20)) (Rabs (H i ord0))) ->
  unweighted_f r (@dot_loop r) (solve1_f r) y H = unweighted_f rnd64 (@dot_loop rnd64) (solve1_f rnd64) y H.
Proof.
  move=> Hr Hm Hy HH [i Hi]. apply: unweighted1_same => //. apply: Rle_trans (Rle_abs _). rewrite /normal_f /mul_f mxE.
  have -> : @dot_loop rnd64 m (fun l => H^T ord0 l) (fun l => H l ord0) = @dot_loop rnd64 m (fun l => H l ord0) (fun l => H l ord0).
  { have X k (a a' b : 'I_k -> R) : a =1 a' -> @dot_loop rnd64 k a b = @dot_loop rnd64 k a' b.
    { elim: k a a' b => [|k IH] a a' b Ea //=. rewrite (IH _ (fun i => a' (widen_ord (leqnSn k) i))); [by rewrite Ea|move=> j; exact: Ea]. }
    apply: X => l. by rewrite mxE. }
  have [_ [_ L]] := loop_sq_lo (fun l => H l ord0). apply: Rle_trans (L i). apply: rnd64_ge_bpow; [lia|].
  change (bpow radix2 (Zneg 40)) with (bpow radix2 (Z.add (Zneg 20) (Zneg 20))). rewrite bpow_plus.
  have := Rmult_le_compat _ _ _ _ (bpow_ge_0 radix2 (Zneg 20)) (bpow_ge_0 radix2 (Zneg 20)) Hi Hi. by rewrite -Rabs_mult (Rabs_pos_eq (Rmult _ _)); [|nra].
Qed.

Lemma bls_case : Rle (bpow radix2 (Zneg 40)) (Rabs (normal_f (@dot_loop rnd64) (const_mx R1 : 'M[R]_1) ord0 ord0)) /\
  (forall i, Rle (Rabs ((const_mx (IZR 3) : 'cV[R]_1) i ord0)) (bpow radix2 40)).
Proof.
  split.
  - have -> : normal_f (@dot_loop rnd64) (const_mx R1 : 'M[R]_1) ord0 ord0 = rnd64 (Rplus R0 (rnd64 (Rmult R1 R1))) by rewrite /normal_f /mul_f !mxE /= !mxE.
    rewrite Rmult_1_l Rplus_0_l. have B : Rle (bpow radix2 (Zneg 40)) R1 by (change R1 with (bpow radix2 0); apply: bpow_le; lia).
    apply: Rle_trans (Rle_abs _). apply: rnd64_ge_bpow; [lia|]. apply: rnd64_ge_bpow; [lia|exact: B].
  - move=> i. rewrite mxE. rewrite Rabs_pos_eq; [|lra]. apply: (Rle_trans _ (bpow radix2 2)); [change (bpow radix2 2) with (IZR 4); lra|apply: bpow_le; lia].
Qed.
