(** Fine alignment in rounded arithmetic. *)
From Coq Require Import Reals Lra ZArith.
From Flocq Require Import Core.
From mathcomp Require Import all_ssreflect all_algebra.
From Verif Require Import Base BaseMx ModelEigen ModelKalman ModelFine ModelFilterFloat ModelUpdateFloat ModelFineFloat SpecFloatOps SpecKalman SpecFine SpecFilterFloat SpecUpdateFloat SpecFineFloat
  ProofMx ProofKalman ProofKalman2 ProofStrapdownFloat ProofDisturb2 ProofLongFloat2 ProofLopsided ProofFine ProofFilterFloat ProofUpdateFloat ProofDirect.
Set Implicit Arguments.
Unset Strict Implicit.
Unset Printing Implicit Defensive.
Import GRing.Theory.
Local Open Scope ring_scope.
Local Open Scope outcome_scope.

Section Powers.
Local Open Scope R_scope.
Definition bb : R := bpow radix2 310.
Lemma bb_ge1 : 1 <= bb.
Proof. rewrite /bb -[1]/(bpow radix2 0). exact: bpow_le. Qed.
Lemma bb_tiny : tiny64 * (bb * bb * bb) <= / 1000000000000000000.
Proof.
  rewrite /tiny64 /eta64 /u64 /bb /Rdiv -bpow_opp -!bpow_plus. have L : bpow radix2 (-1075 + - -53 + (310 + 310 + 310)) <= bpow radix2 (-60) by apply: bpow_le.
  apply: Rle_trans L _. rewrite (_ : bpow radix2 (-60) = / 1152921504606846976); last by []. apply: Rinv_le_contravar; lra.
Qed.
Lemma ord_inside d e : ordinary d -> 99 / 100 * d <= e <= 101 / 100 * d -> inside bb e.
Proof.
  move=> [A B] [C E]. have P : 0 < d by apply: Rlt_le_trans A; exact: bpow_gt_0.
  have L : bpow radix2 (-310) * 1024 = bpow radix2 (-300) by rewrite -[1024]/(bpow radix2 10) -bpow_plus. have H : bpow radix2 300 * 1024 = bpow radix2 310 by rewrite -[1024]/(bpow radix2 10) -bpow_plus.
  split; last by rewrite /bb -H; lra. have X : 0 < bpow radix2 (-310) by exact: bpow_gt_0.
  have EI : / bb = bpow radix2 (-310) by rewrite /bb -bpow_opp. lra.
Qed.
Lemma ord_inside' d : ordinary d -> inside bb d.
Proof. move=> H. apply: (ord_inside H). have := proj1 H. have := bpow_gt_0 radix2 (-300). lra. Qed.
(** The noise of the measurement. *)
Lemma noise_err r sig dt S T : rnd_ok r -> ordinary T -> S = T * T -> 0 <= dt <= bpow radix2 300 -> sig * sig * dt <= S ->
  Rabs (r (r (sig * sig) * dt) - sig * sig * dt) <= 3 * u64 * S.
Proof.
  move=> Hr HT -> Hdt HS. have [U0 U1] := u64_bounds. have Q := Rle_0_sqr sig. rewrite /Rsqr in Q.
  have E0 : 0 < eta64 by exact: bpow_gt_0.
  have A := Hr (sig * sig). rewrite (Rabs_right (sig * sig)) in A; last lra. move: A Q HS. move: (sig * sig) => a A Q HS.
  have B := Hr (r a * dt). have C : Rabs (r a * dt - a * dt) <= u64 * (a * dt) + eta64 * dt.
  { rewrite (_ : r a * dt - a * dt = (r a - a) * dt); last ring. rewrite Rabs_mult (Rabs_right dt); last lra. have := Rmult_le_compat_r dt _ _ (proj1 Hdt) A. lra. }
  have F : Rabs (r a * dt) <= a * dt * (1 + u64) + eta64 * dt.
  { have := Rabs_triang (r a * dt - a * dt) (a * dt). rewrite (_ : r a * dt - a * dt + a * dt = r a * dt); last ring. rewrite (Rabs_right (a * dt)); last by apply: Rle_ge; apply: Rmult_le_pos; lra. lra. }
  have TT : bpow radix2 (-600) <= T * T.
  { have H := proj1 HT. rewrite (_ : bpow radix2 (-600) = bpow radix2 (-300) * bpow radix2 (-300)); last by rewrite -bpow_plus. have := bpow_gt_0 radix2 (-300). move=> X. apply: Rmult_le_compat; lra. }
  have G : eta64 * dt <= / 100 * (u64 * (T * T)).
  { apply: Rle_trans (Rmult_le_compat_l eta64 _ _ (Rlt_le _ _ E0) (proj2 Hdt)) _. rewrite /eta64 -bpow_plus.
    have : bpow radix2 (-1075 + 300) * 1024 <= u64 * bpow radix2 (-600). { rewrite /u64 -[1024]/(bpow radix2 10) -!bpow_plus. exact: bpow_le. }
    have := bpow_gt_0 radix2 (-1075 + 300). have := Rmult_le_compat_l u64 _ _ (Rlt_le _ _ U0) TT. lra. }
  have G2 : eta64 <= / 100 * (u64 * (T * T)).
  { have : eta64 * 1024 <= u64 * bpow radix2 (-600). { rewrite /u64 /eta64 -[1024]/(bpow radix2 10) -!bpow_plus. exact: bpow_le. }
    have := Rmult_le_compat_l u64 _ _ (Rlt_le _ _ U0) TT. lra. }
  have F2 := Rmult_le_compat_l u64 _ _ (Rlt_le _ _ U0) F. have P : 0 <= a * dt by apply: Rmult_le_pos; lra.
  have W : u64 * (a * dt) <= u64 * (T * T) by apply: Rmult_le_compat_l; lra. have W0 : 0 <= u64 * (a * dt) by apply: Rmult_le_pos; lra.
  have := Rabs_triang (r (r a * dt) - r a * dt) (r a * dt - a * dt). rewrite (_ : r (r a * dt) - r a * dt + (r a * dt - a * dt) = r (r a * dt) - a * dt); last ring.
  have V1 : u64 * (u64 * (a * dt)) <= / 1000 * (u64 * (a * dt)) by apply: Rmult_le_compat_r; lra.
  have V2 : u64 * (eta64 * dt) <= / 1000 * (eta64 * dt). { apply: Rmult_le_compat_r; last lra. apply: Rmult_le_pos; lra. }
  nra.
Qed.
Lemma root_near S S' T e : S = T * T -> 0 < T -> Rabs (S' - S) <= e * S -> 0 <= e <= / 1000 -> let T' := sqrt S' in
  S' = T' * T' /\ 999 / 1000 * T <= T' <= 1001 / 1000 * T.
Proof.
  move=> -> T0 H He T'. have TT : 0 < T * T by nra. have A := Rabs_le_inv _ _ H.
  have B : e * (T * T) <= / 1000 * (T * T) by apply: Rmult_le_compat_r; lra. have S0 : 0 <= S' by lra.
  split; first by rewrite /T' sqrt_sqrt.
  have E1 : 999 / 1000 * T = sqrt ((999 / 1000 * T) * (999 / 1000 * T)) by rewrite sqrt_square //; lra.
  have E2 : 1001 / 1000 * T = sqrt ((1001 / 1000 * T) * (1001 / 1000 * T)) by rewrite sqrt_square //; lra.
  split; [rewrite E1|rewrite E2]; apply: sqrt_le_1_alt; nra.
Qed.
(** From the computed noise to the true one. *)
Lemma inv_near S S' T T' u : S = T * T -> S' = T' * T' -> 0 < T -> 999 / 1000 * T <= T' -> 0 < u -> Rabs (S' - S) <= 3 * u * S -> Rabs (/ S' - / S) <= 301 / 100 * u * / S.
Proof.
  move=> -> -> T0 L u0 H. have TT : 0 < T * T by nra. have TT' : 997 / 1000 * (T * T) <= T' * T' by nra. have P : 0 < T' * T' by lra.
  rewrite (_ : / (T' * T') - / (T * T) = - (T' * T' - T * T) * / (T' * T') * / (T * T)); last by field; split; lra.
  rewrite !Rabs_mult Rabs_Ropp (Rabs_right (/ (T * T))); last by apply: Rle_ge; left; exact: Rinv_0_lt_compat.
  apply: Rmult_le_compat_r; first by left; exact: Rinv_0_lt_compat. rewrite (Rabs_right (/ (T' * T'))); last by apply: Rle_ge; left; exact: Rinv_0_lt_compat.
  apply: (Rmult_le_reg_r (T' * T')) => //. rewrite Rmult_assoc Rinv_l; last lra. rewrite Rmult_1_r. nra.
Qed.
Lemma cov_total di dj T pi pj u e f S S' : 0 < di -> 0 < dj -> 0 < T -> 0 < u -> S = T * T -> Rabs pi <= di * T -> Rabs pj <= dj * T ->
  Rabs (/ S' - / S) <= 301 / 100 * u * / S -> Rabs (f - (e - pi * pj / S')) <= 109 * (9 * u) * (di * dj) -> Rabs (f - (e - pi * pj / S)) <= 990 * u * (di * dj).
Proof.
  move=> i0 j0 T0 u0 -> Hi Hj HS H. have := Rabs_triang (f - (e - pi * pj / S')) (- (pi * pj * (/ S' - / (T * T)))).
  rewrite (_ : f - (e - pi * pj / S') + - (pi * pj * (/ S' - / (T * T))) = f - (e - pi * pj / (T * T))); last by rewrite /Rdiv; ring.
  rewrite Rabs_Ropp !Rabs_mult.
  have A : Rabs pi * Rabs pj <= di * T * (dj * T) by apply: Rmult_le_compat => //; exact: Rabs_pos.
  have B := Rmult_le_compat _ _ _ _ (Rmult_le_pos _ _ (Rabs_pos pi) (Rabs_pos pj)) (Rabs_pos _) A HS.
  rewrite (_ : di * T * (dj * T) * (301 / 100 * u * / (T * T)) = 301 / 100 * (u * (di * dj))) in B; last by field; lra.
  have C : 0 < u * (di * dj) by apply: Rmult_lt_0_compat => //; nra. lra.
Qed.
Lemma state_total d T T' p u t f x xc z z' az es S S' : 0 < d -> 0 < T -> 0 < u <= / 1000000 -> 0 < t -> S = T * T -> 999 / 1000 * T <= T' -> Rabs p <= d * T -> z = az - es -> Rabs (z' - z) <= u * Rabs z + u * t ->
  Rabs (/ S' - / S) <= 301 / 100 * u * / S ->
  Rabs (f - (x + p / S' * (z' - xc))) <= 34 * (9 * u) * (Rabs x + d / T' * (Rabs z' + Rabs xc + t) + t) ->
  Rabs (f - (x + p / S * (z - xc))) <= 320 * u * (Rabs x + d / T * (Rabs az + Rabs es + Rabs xc + t) + t).
Proof.
  move=> d0 T0 u0 t0 ES LT Hp Ez Hz HS H. have dT : 0 < d / T by apply: Rdiv_lt_0_compat.
  have dT' : 0 <= d / T' <= 1002 / 1000 * (d / T).
  { have : 0 < / T' by apply: Rinv_0_lt_compat; lra. move=> I. split; first by rewrite /Rdiv; nra. apply: (Rmult_le_reg_r (T' * T)); first nra.
    rewrite (_ : d / T' * (T' * T) = d * T); last by field; lra. rewrite (_ : 1002 / 1000 * (d / T) * (T' * T) = d * (1002 / 1000 * T')); last by field; lra. apply: Rmult_le_compat_l; lra. }
  have Z : Rabs z <= Rabs az + Rabs es by rewrite Ez; exact: abs_minus.
  have Z' : Rabs z' <= 1001 / 1000 * (Rabs az + Rabs es) + / 1000 * t.
  { have := Rabs_triang (z' - z) z. rewrite (_ : z' - z + z = z'); last ring. have : u * Rabs z <= / 1000000 * Rabs z by apply: Rmult_le_compat_r; [exact: Rabs_pos|lra]. have := Rabs_pos z. nra. }
  have X0 := Rabs_pos x. have X1 := Rabs_pos xc. have X2 := Rabs_pos az. have X3 := Rabs_pos es.
  set A := Rabs az + Rabs es in Z Z' *. set g := d / T in dT dT' *.
  have W1 : d / T' * (Rabs z' + Rabs xc + t) <= 1002 / 1000 * g * (1001 / 1000 * A + Rabs xc + 1001 / 1000 * t).
  { apply: Rmult_le_compat; try lra. have := Rabs_pos z'. lra. }
  have P : Rabs (p * / S) <= g.
  { rewrite Rabs_mult (Rabs_right (/ S)); last by apply: Rle_ge; left; apply: Rinv_0_lt_compat; rewrite ES; nra. rewrite ES /g. apply: (Rmult_le_reg_r (T * T)); first nra.
    rewrite Rmult_assoc Rinv_l; last by nra. rewrite Rmult_1_r (_ : d / T * (T * T) = d * T) //. field. lra. }
  have P' : Rabs (p * (/ S' - / S)) <= 301 / 100 * u * g.
  { rewrite Rabs_mult. apply: Rle_trans (Rmult_le_compat _ _ _ _ (Rabs_pos _) (Rabs_pos _) Hp HS) _. right. rewrite ES /g. field. lra. }
  have Q := Rabs_triang (f - (x + p / S' * (z' - xc))) (p * (/ S' - / S) * (z' - xc) + p * / S * (z' - z)).
  rewrite (_ : f - (x + p / S' * (z' - xc)) + (p * (/ S' - / S) * (z' - xc) + p * / S * (z' - z)) = f - (x + p / S * (z - xc))) in Q; last by rewrite /Rdiv; ring.
  have Q1 : Rabs (p * (/ S' - / S) * (z' - xc)) <= 301 / 100 * u * g * (1001 / 1000 * A + / 1000 * t + Rabs xc).
  { rewrite Rabs_mult. apply: Rmult_le_compat => //; try exact: Rabs_pos. have := abs_minus z' xc. lra. }
  have Q2 : Rabs (p * / S * (z' - z)) <= g * (u * A + u * t).
  { rewrite Rabs_mult. apply: Rmult_le_compat => //; try exact: Rabs_pos. have : u * Rabs z <= u * A by apply: Rmult_le_compat_l; lra. lra. }
  have Q3 := Rabs_triang (p * (/ S' - / S) * (z' - xc)) (p * / S * (z' - z)).
  have W2 := Rmult_le_compat_l (34 * (9 * u)) _ _ ltac:(lra) W1.
  have G1 : 0 <= u * (g * A) by apply: Rmult_le_pos; [lra|apply: Rmult_le_pos; rewrite /A; lra].
  have G2 : 0 <= u * (g * Rabs xc) by apply: Rmult_le_pos; [lra|apply: Rmult_le_pos; lra].
  have G3 : 0 <= u * (g * t) by apply: Rmult_le_pos; [lra|apply: Rmult_le_pos; lra].
  have G4 : 0 <= u * Rabs x by nra. have G5 : 0 <= u * t by nra. clearbody A g. lra.
Qed.
End Powers.

Lemma psd_dev n (P : 'M[R]_n) (D : 'I_n -> R) : psd P -> (forall i, Rle 0 (D i)) -> (forall i, Rle (P i i) (Rmult (D i) (D i))) -> forall i j, Rle (Rabs (P i j)) (Rmult (D i) (D j)).
Proof.
  move=> HA D0 HD i j. apply: abs_sq; first exact: Rmult_le_pos. have := @form_bound n P P 1 (delta_mx i 0) (delta_mx j 0) HA (proj1 HA) ltac:(lra).
  have X v : Rle (qf P v) (Rmult 1 (qf P v)) by lra. have Y v : Rle (Ropp (Rmult 1 (qf P v))) (qf P v) by have := proj2 HA v; lra.
  move=> /(_ X Y). rewrite /qf !delta_entry. have := Rmult_le_compat _ _ _ _ (diag_ge0 i HA) (diag_ge0 j HA) (HD i) (HD j). lra.
Qed.
Lemma INR8 : INR 8 = IZR 8. Proof. by rewrite INR_IZR_INZ. Qed.
Lemma vN8 : vN 8 = Rmult 9 u64. Proof. rewrite /vN INR8. toR. lra. Qed.
Lemma N8 : Rle (INR 8) 1000000. Proof. rewrite INR8. lra. Qed.

Theorem azimuth_ok r dot azMeas dtAz azEst sigAz (x x1 : 'cV[R]_8) (P P1 : 'M[R]_8) (D : 'I_8 -> R) T :
  rnd_ok r -> dot_ok dot -> psd P -> (forall i, ordinary (D i)) -> (forall i, Rle (P i i) (Rmult (D i) (D i))) ->
  Rle 0 dtAz -> Rle dtAz (bpow radix2 300) -> ordinary T -> Rplus (P aD aD) (Rmult (Rmult sigAz sigAz) dtAz) = Rmult T T -> Rle (D aD) T ->
  exists (xe xf : 'cV[R]_8) (Pe Pf : 'M[R]_8), fineAlignmentAzimuthUpdate azMeas dtAz azEst sigAz (DV x) (DM P) (DV x1) (DM P1) = Ret (true, (DV xe, DM Pe)) /\
  fineAlignmentAzimuthUpdate_f r dot (inv1_f r) azMeas dtAz azEst sigAz x P = Ret (xf, Pf) /\
  (forall i, Rle (Rabs (Rminus (xf i 0) (xe i 0))) (Rmult (Rmult 320 u64) (Rplus (Rplus (Rabs (x i 0)) (Rmult (Rdiv (D i) T) (Rplus (Rplus (Rplus (Rabs azMeas) (Rabs azEst)) (Rabs (x aD 0))) tiny64))) tiny64))) /\
  (forall i j, Rle (Rabs (Rminus (Pf i j) (Pe i j))) (Rmult (Rmult 990 u64) (Rmult (D i) (D j)))).
Proof.
  move=> Hr Hd HP HD PD dt0 dt1 HT ES DT. have [U0 U1] := u64_bounds. have T0 : Rlt 0 T by apply: Rlt_le_trans (proj1 HT); exact: bpow_gt_0.
  have TT : Rlt 0 (Rmult T T) by apply: Rmult_lt_0_compat. have c0 := diag_ge0 aD HP.
  have D0 i : Rlt 0 (D i) by apply: Rlt_le_trans (proj1 (HD i)); exact: bpow_gt_0.
  have PDD := psd_dev HP (fun i => Rlt_le _ _ (D0 i)) PD.
  have v0 : Rle 0 (Rmult (Rmult sigAz sigAz) dtAz) by apply: Rmult_le_pos => //; exact: Rle_0_sqr.
  have vS : Rle (Rmult (Rmult sigAz sigAz) dtAz) (Rmult T T) by lra.
  have NE := noise_err Hr HT erefl (conj dt0 dt1) vS. set w := r (Rmult (r _) _) in NE.
  have [xe [Pe [EE [EX EP]]]] := @faz_ok azMeas dtAz azEst sigAz x x1 P P1 ltac:(rewrite ES; exact: Rgt_not_eq) (proj1 HP).
  rewrite ES in EX EP. set S' := Rplus (P aD aD) w.
  have SS : Rle (Rabs (Rminus S' (Rmult T T))) (Rmult (Rmult 3 u64) (Rmult T T)).
  { rewrite /S' -ES in NE *. rewrite (_ : Rminus (Rplus (P aD aD) w) (Rplus (P aD aD) (Rmult (Rmult sigAz sigAz) dtAz)) = Rminus w (Rmult (Rmult sigAz sigAz) dtAz)) //. ring. }
  have [ES' [L1 L2]] := root_near erefl T0 SS ltac:(lra). set T' := sqrt S' in ES' L1 L2.
  have HT' : inside bb T' by apply: (ord_inside HT); lra.
  have UT : Rle (Rmult (Rmult 3 u64) (Rmult T T)) (Rmult (Rinv 100000) (Rmult T T)) by apply: Rmult_le_compat_r; lra.
  have TT' : Rle (Rmult (Rdiv 998 1000) (Rmult T T)) (Rmult T' T') by nra.
  have B1 := Rabs_le_inv _ _ NE.
  have w1 : Rle (Rabs w) (Rmult T' T').
  { apply: Rabs_le. rewrite -ES' /S'. lra. }
  have w2 : Rle (Rplus (Rabs (P aD aD)) (Rabs w)) (Rmult (Rdiv 1005 1000) (Rmult T' T')).
  { rewrite (Rabs_right (P aD aD)); last lra. rewrite -ES' /S'. rewrite -ES' /S' in TT'. have : Rle (Rabs w) (Rplus w (Rmult 2 (Rmult (Rmult 3 u64) (Rmult T T)))) by apply: Rabs_le; lra. lra. }
  have DT' : Rle (D aD) (Rmult (Rdiv 101 100) T') by lra.
  have [xf [Pf [EF [BX BP]]]] := @direct_update r dot 8 8 Hr Hd N8 isT isT P aD w D T' bb bb_ge1 bb_tiny (proj1 HP) PDD (fun i => ord_inside' (HD i)) HT' w1 w2 ES' DT' x x1 (const_mx (r (Rminus azMeas azEst))) P1.
  exists xe, xf, Pe, Pf. split=> //. split.
  { rewrite /fineAlignmentAzimuthUpdate_f Haz_ok /Haz -EF. congr filterUpdate_f; apply/matrixP => i j; rewrite !ord1 !mxE //. }
  have IN := inv_near erefl ES' T0 L1 U0 SS. rewrite vN8 in BX BP.
  have PT i : Rle (Rabs (P i aD)) (Rmult (D i) T). { apply: Rle_trans (PDD i aD) _. apply: Rmult_le_compat_l => //. left. exact: D0. }
  split=> [i|i j].
  - rewrite EX. have B := BX i. rewrite [const_mx _ _ _]mxE -ES' in B.
    apply: (@state_total (D i) T T' (P i aD) u64 tiny64 _ _ _ _ _ _ _ _ S' (D0 i) T0 _ tiny_pos erefl L1 (PT i) erefl _ IN B); first lra. rewrite -eta_tiny. exact: Hr.
  - rewrite EP. have B := BP i j. rewrite -ES' in B. exact: (@cov_total (D i) (D j) T (P i aD) (P j aD) u64 _ _ _ S' (D0 i) (D0 j) T0 U0 erefl (PT i) (PT j) IN B).
Qed.
