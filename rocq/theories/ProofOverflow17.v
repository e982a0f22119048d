(** No overflow in the prediction and the updates of fine alignment. *)
From Coq Require Import Reals ZArith Lra Lia Psatz.
From Flocq Require Import Core.
From mathcomp Require Import all_ssreflect all_algebra.
From Verif Require Import Base BaseMx ModelDate ModelFine ModelFilterFloat ModelUpdateFloat ModelFineFloat SpecOverflow ProofRnd ProofMx ProofOverflow ProofOverflow2 ProofOverflow3 ProofOverflow4
  ProofOverflow15.
Set Implicit Arguments.
Unset Strict Implicit.
Unset Printing Implicit Defensive.
Import GRing.Theory.
Local Open Scope ring_scope.
Local Arguments Z.pow : simpl never.

Fixpoint row_bd e (a : seq R) : Prop := if a is x :: a' then bd e x /\ row_bd e a' else True.
Fixpoint rows_bd e (l : seq (seq R)) : Prop := if l is a :: l' then row_bd e a /\ rows_bd e l' else True.
Lemma row_nth e a j : row_bd e a -> bd e (nth R0 a j).
Proof. elim: a j => [|x a IH] [|j] /= H; try exact: bd_0; [by case: H|apply: IH; by case: H]. Qed.
Lemma rows_nth e l i : rows_bd e l -> row_bd e (nth [::] l i).
Proof. elim: l i => [|x a IH] [|i] //= H; [by case: H|apply: IH; by case: H]. Qed.
Lemma mx_bd e m n l : rows_bd e l -> forall (i : 'I_m) (j : 'I_n), bd e (mx_of m n l i j).
Proof. move=> H i j. rewrite mxE. apply: row_nth. exact: rows_nth. Qed.

Section F.
Variable r : R -> R.
Hypothesis Hr : binary64_in_range r.
Let fs x := r (sin x).
Let fc x := r (cos x).
Let ft x := r (tan x).

Lemma fine_predict_same lat wE g rad (x : 'cV[R]_8) (P : 'M[R]_8) : bd 100 (tan lat) -> bd 100 wE -> bd 100 g -> Rle (bpow radix2 (-100)) (Rabs rad) ->
  (forall i, bd 290 (x i ord0)) -> (forall i j, bd 290 (P i j)) ->
  fineAlignmentPredict_f r (@dot_loop r) fs fc ft lat wE g rad x P =
  fineAlignmentPredict_f rnd64 (@dot_loop rnd64) (fun x => rnd64 (sin x)) (fun x => rnd64 (cos x)) (fun x => rnd64 (tan x)) lat wE g rad x P.
Proof.
  move=> BT BW BG L Hx HP. rewrite /fineAlignmentPredict_f /alignmentPhik_f /fs /fc /ft.
  have Bs := bd_sin lat. have Bc := bd_cos lat.
  rewrite (same r Hr _ _ Bs); last lia. rewrite (same r Hr _ _ Bc); last lia. rewrite (same r Hr _ _ BT); last lia.
  move: (bd_rnd 0 _ ltac:(lia) Bs) (bd_rnd 0 _ ltac:(lia) Bc) (bd_rnd 100 _ ltac:(lia) BT).
  move: (rnd64 (sin lat)) (rnd64 (cos lat)) (rnd64 (tan lat)) => s c t {Bs Bc BT} Bs Bc Bt.
  have B2 : bd 1 (IZR (-2)) by exact: (bd_opp _ _ bd_2).
  have Bm : bd 0 (IZR (-1)) by exact: (bd_opp _ _ bd_1).
  rewrite /Rdivc. case: (Req_EM_T rad 0) => //= _.
  have D1 := bd_div _ _ _ _ bd_1 L. have D2 := bd_div _ _ _ _ Bt L. have D3 := bd_div _ _ _ _ Bm L.
  have M1 := bd_mul _ _ _ _ (bd_opp _ _ BW) Bs. have M2 := bd_mul _ _ _ _ BW Bs. have M3 := bd_mul _ _ _ _ BW Bc. have M4 := bd_mul _ _ _ _ (bd_opp _ _ BW) Bc.
  have M5 := bd_mul _ _ _ _ B2 BW. have M6 := bd_mul _ _ _ _ bd_2 BW.
  have M7 := bd_mul _ _ _ _ (bd_rnd 101 _ ltac:(lia) M5) Bs. have M8 := bd_mul _ _ _ _ (bd_rnd 101 _ ltac:(lia) M6) Bs.
  rewrite (same r Hr _ _ D1) // (same r Hr _ _ D2) // (same r Hr _ _ D3) // (same r Hr _ _ M1) // (same r Hr _ _ M2) // (same r Hr _ _ M3) // (same r Hr _ _ M4) //
    (same r Hr _ _ M5) // (same r Hr _ _ M6) // (same r Hr _ _ M7) // (same r Hr _ _ M8) //.
  congr Ret. apply: predict_same => //.
  - apply: mx_bd => /=.
    have w e y : bd e y -> Z.le (Zneg 1074) e -> Z.le e 290 -> bd 290 (rnd64 y) by move=> A A1 A2; apply: (bd_w e); [exact: bd_rnd|exact: A2].
    have z := bd_0 290. have o : bd 290 (IZR (-1)) by apply: (bd_w 0 290); [exact: Bm|lia].
    have g1 : bd 290 g by apply: (bd_w 100 290); [exact: BG|lia]. have g2 := bd_opp _ _ g1.
    repeat split; first [assumption|exact I|eapply w; [eassumption|by []|by []]].
  - move=> i j. rewrite mxE. exact: (bd_0 290).
Qed.

Lemma loop_ge0 k (a b : 'I_k -> R) : (forall i, Rle R0 (Rmult (a i) (b i))) -> Rle R0 (@dot_loop rnd64 k a b).
Proof.
  elim: k a b => [|k IH] a b H /=; first exact: Rle_refl. apply: rnd64_ge0. apply: Rplus_le_le_0_compat; [exact: IH|exact: rnd64_ge0].
Qed.
Definition azH : 'M[R]_(1, 8) := mx_of 1 8 [:: [:: R0; R0; R1; R0; R0; R0; R0; R0]].
Definition az2 : 'I_8 := @Ordinal 8 2 erefl.
Lemma azH_0 l : l != az2 -> azH ord0 l = R0.
Proof. rewrite mxE. by case: l => [[|[|[|[|[|[|[|[|l]]]]]]]] p]. Qed.
Lemma azH_2 : azH ord0 az2 = R1. Proof. by rewrite mxE. Qed.
Lemma az_lo (P : 'M[R]_8) q : Rle R0 (P az2 az2) -> Rle (bpow radix2 (-60)) q ->
  Rle (bpow radix2 (-60)) (Rabs (innov64 P azH (mx_of 1 1 [:: [:: q]]) ord0 ord0)).
Proof.
  move=> HP Hq. rewrite /innov64. set A := mul_f _ (mul_f _ azH P) azH^T.
  have D : Rle R0 (A ord0 ord0).
  { rewrite /A mxE. apply: loop_ge0 => j. case: (boolP (j == az2)) => [/eqP ->|N]; last first.
    { have -> : azH^T j ord0 = R0 by rewrite mxE azH_0. rewrite Rmult_0_r. exact: Rle_refl. }
    have -> : azH^T az2 ord0 = R1 by rewrite mxE azH_2. rewrite Rmult_1_r mxE. apply: loop_ge0 => l. case: (boolP (l == az2)) => [/eqP ->|N]; first by rewrite azH_2 Rmult_1_l.
    rewrite azH_0 // Rmult_0_l. exact: Rle_refl. }
  clearbody A. rewrite mxE mxE.
  have -> : mx_of 1 1 [:: [:: q]] ord0 ord0 = q by rewrite mxE. toR. apply: (Rle_trans _ (rnd64 (Rplus (A ord0 ord0) q))); last exact: Rle_abs.
  apply: (rnd64_ge_bpow (Zneg 60)); first by []. change (bpow radix2 (Zneg 60)) with (bpow radix2 (-60)). lra.
Qed.
Lemma azimuth_same azMeas dtAz azEst sigAz (x : 'cV[R]_8) (P : 'M[R]_8) :
  (forall i, bd 60 (x i ord0)) -> (forall i j, bd 60 (P i j)) -> Rle R0 (P az2 az2) -> bd 50 azMeas -> bd 50 azEst ->
  Rle (bpow radix2 (-15)) (Rabs sigAz) -> Rle (Rabs sigAz) (bpow radix2 20) -> Rle (bpow radix2 (-30)) dtAz -> Rle dtAz (bpow radix2 20) ->
  fineAlignmentAzimuthUpdate_f r (@dot_loop r) (inv1_f r) azMeas dtAz azEst sigAz x P =
  fineAlignmentAzimuthUpdate_f rnd64 (@dot_loop rnd64) (inv1_f rnd64) azMeas dtAz azEst sigAz x P.
Proof.
  move=> Hx HP H2 BM BE L1 BS L2 BD'. rewrite /fineAlignmentAzimuthUpdate_f.
  have BD : bd 20 dtAz by rewrite /bd Rabs_pos_eq //; have := bpow_gt_0 radix2 (-30); lra.
  have B1 := bd_sub _ _ _ BM BE. have B2 := bd_mul _ _ _ _ (BS : bd 20 sigAz) (BS : bd 20 sigAz).
  have B3 := bd_mul _ _ _ _ (bd_rnd 40 _ ltac:(lia) B2) BD.
  rewrite (same r Hr _ _ B1) // (same r Hr _ _ B2) // (same r Hr _ _ B3) //.
  have Q : Rle (bpow radix2 (-60)) (rnd64 (Rmult (rnd64 (Rmult sigAz sigAz)) dtAz)).
  { have S1 := sq_ge (-15) _ ltac:(lia) L1. exact: (mul_lo (-30) (-30) _ _ ltac:(lia) S1 L2). }
  apply: update1_same => //.
  - move=> i. apply: mx_bd => /=. split=> //. split=> //. by apply: (bd_w 51); [exact: (bd_rnd 51 _ ltac:(lia) B1)|lia].
  - apply: mx_bd => /=. have z := bd_0 60. have o : bd 60 R1 by apply: (bd_w 0 60); [exact: bd_1|lia]. by repeat split.
  - apply: mx_bd => /=. split=> //. split=> //. exact: (bd_rnd 60 _ ltac:(lia) B3).
  - exact: az_lo.
Qed.
End F.
Lemma fine_case : Rle (Rabs (tan 0)) (bpow radix2 100) /\ Rle (bpow radix2 (-100)) (Rabs 6378137) /\ Rle R0 ((1%:M : 'M[R]_8) az2 az2) /\
  Rle (bpow radix2 (-15)) (Rabs (Rdiv 1 1000)) /\ Rle (Rabs (Rdiv 1 1000)) (bpow radix2 20) /\ Rle (bpow radix2 (-30)) (Rdiv 1 100) /\ Rle (Rdiv 1 100) (bpow radix2 20).
Proof.
  split; first by rewrite tan_0; exact: (bd_0 100). have P : Rle 0 (Rdiv 1 1000) by lra. rewrite (Rabs_pos_eq _ P).
  split. { rewrite Rabs_pos_eq; last lra. apply: (Rle_trans _ (bpow radix2 0)); first by apply: bpow_le. rewrite /=. lra. }
  split; first by rewrite mxE eqxx mulr1n; exact: Rle_0_1.
  change (bpow radix2 (-15)) with (Rinv (IZR 32768)). change (bpow radix2 (-30)) with (Rinv (IZR 1073741824)). change (bpow radix2 20) with (IZR 1048576). lra.
Qed.
