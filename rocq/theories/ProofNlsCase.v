(** A case of nonlinear least squares in double arithmetic: a value and its square. *)
From Coq Require Import Reals Lra.
From mathcomp Require Import all_ssreflect all_algebra all_fingroup.
From Verif Require Import Base BaseMx ModelDate ModelFilterFloat ModelLdltMx ModelLdltFloat ModelBlsFloat ModelNlsFloat SpecFloatOps SpecKalman SpecFilter SpecBls SpecFilterFloat SpecUpdateFloat SpecBlsFloat SpecLdltFloat SpecNlsFloat ProofMx ProofUpdateFloat ProofBlsFloat ProofStrapdownFloat ProofFilterFloat ProofLdlt7 ProofLdlt8 ProofGaussNewton ProofNlsFloat ProofNlsFloat2.
Set Implicit Arguments.
Unset Strict Implicit.
Unset Printing Implicit Defensive.
Import GRing.Theory.
Local Open Scope ring_scope.
Local Open Scope outcome_scope.

Section Scal.
Local Open Scope R_scope.
Lemma case_sq u a q : 0 < u <= 1 / 1000000 -> 1 / 2 <= a <= 3 / 2 -> Rabs (q - a * a) <= 5 / 2 * u -> 
  Rabs (1 - (q + 2 * a * (1 - a))) <= 3 * u + 1 / 2 * Rabs (a - 1) /\ (9 / 8 - q) * (9 / 8 - q) + (3 / 4 - a) * (3 / 4 - a) <= 4.
Proof.
  move=> U A B. have [B1 B2] : - (5 / 2 * u) <= q - a * a <= 5 / 2 * u by move: B; rewrite /Rabs; case: Rcase_abs; lra. split.
  - have -> : 1 - (q + 2 * a * (1 - a)) = (a - 1) * (a - 1) - (q - a * a) by ring.
    apply: Rle_trans (Rabs_triang _ _) _. rewrite Rabs_Ropp Rabs_mult. have H : Rabs (a - 1) <= 1 / 2 by rewrite /Rabs; case: Rcase_abs; lra.
    have := Rabs_pos (a - 1). move: (Rabs (a - 1)) H B => w H B W. nra.
  - have C1 : 1 / 4 <= a * a by nra. have C2 : a * a <= 9 / 4 by nra.
    have [D1 D2] : - (3 / 2) <= 9 / 8 - q <= 3 / 2 by lra.
    move: (9 / 8 - q) D1 D2 => z D1 D2. have E : z * z <= 9 / 4 by clear -D1 D2; nra.
    have F : (3 / 4 - a) * (3 / 4 - a) <= 9 / 16 by clear -A; nra. lra.
Qed.
Lemma rnd_sq r a : rnd_ok r -> 1 / 2 <= a <= 3 / 2 -> Rabs (r (a * a) - a * a) <= 5 / 2 * u64.
Proof.
  move=> Hr A. apply: Rle_trans (Hr _) _. have C1 : 0 <= a * a by nra. have C2 : a * a <= 9 / 4 by nra. rewrite Rabs_pos_eq //.
  have [U0 _] := u64_bounds. rewrite eta_tiny. have := tiny_small. have T := tiny_pos. nra.
Qed.
Lemma noise_val : noise (7 / 5) (3 * u64) 0 (72 * u64 * (1 / 1)) 2 1 <= 931 * u64.
Proof. rewrite /noise. have [U _] := u64_bounds. lra. Qed.
Lemma noise_pos : 0 <= noise (7 / 5) (3 * u64) 0 (72 * u64 * (1 / 1)) 2 1.
Proof. rewrite /noise. have [U _] := u64_bounds. lra. Qed.
Lemma rate_val : 0 <= rate (7 / 5) (1 / 2) (1 / 4) <= 1 / 2.
Proof. rewrite /rate. lra. Qed.
Lemma pow_half : (1 / 2) ^ 40 <= 1 / 1000000000000.
Proof. rewrite /=. lra. Qed.
Lemma tol k t w d : d = 1 / 2 -> 0 <= k <= 1 / 2 -> 0 <= t <= 931 * u64 -> 0 <= w <= 1 / 1000000000000 ->
  101 / 100 * ((1 + k) * k ^ 40 * d + 2 * (t / (1 - k))) + w <= 1 / 100000000000 /\
  (k * (101 / 100 * (1 / 100000000000) + w) + t) / (1 - k) <= 3 / 200000000000 /\ k * (1 / 2) + t <= 1 / 2.
Proof.
  move=> -> K T W. have [U U'] := u64_sharp.
  have P := pow_incr _ _ 40 K. have Q := pow_half. have P0 := pow_le _ 40 (proj1 K).
  move: (k ^ 40) P P0 => p P P0.
  have D : t / (1 - k) <= 2 * t by apply: (Rmult_le_reg_r (1 - k)); [lra|rewrite /Rdiv Rmult_assoc Rinv_l; nra].
  split; first nra. split; last lra.
  apply: (Rmult_le_reg_r (1 - k)); [lra|rewrite /Rdiv Rmult_assoc Rinv_l; nra].
Qed.
Lemma sv_val : 9 * ((1 + 2) * u64) = 27 * u64. Proof. ring. Qed.
End Scal.

Definition sqf (x : 'cV[R]_1) : 'cV[R]_2 := pairv (rnd64 (Rmult (x 0 0) (x 0 0))) (x 0 0).
Lemma sqf_tame : tame_f sqf sqH (pairv (9 / 8) (3 / 4)) (pairv 1 1) (one1 1) (7 / 5) 1 (Rmult 3 u64) (1 / 2) 0 (1 / 4) 2 (1 / 2).
Proof.
  move=> x. rewrite len_one !mxE => B. have B' : Rle (Rabs (Rminus (x 0 0) 1)) (1 / 2) by exact: B.
  have [B1 B2] : Rle (1 / 2) (x 0 0) /\ Rle (x 0 0) (3 / 2) by move: B'; rewrite /Rabs; case: Rcase_abs; lra.
  have [U0 U1] := u64_bounds. have U : Rle u64 (1 / 1000000) by lra.
  have [C1 C2] := case_sq (conj U0 U) (conj B1 B2) (rnd_sq rnd64_rnd_ok (conj B1 B2)).
  have N : (sqH x)^T *m sqH x = one1 (Rplus (Rmult (Rmult 2 (x 0 0)) (Rmult 2 (x 0 0))) 1).
  { apply/matrixP => i j. rewrite !ord1 !mxE !big_ord_recl big_ord0 !mxE /=. toR. eqR. atoms. ring. }
  split.
  - split; last split.
    + move=> v. have -> : sqH x *m v = pairv (Rmult (Rmult 2 (x 0 0)) (v 0 0)) (v 0 0).
      { apply/matrixP => i j. rewrite !ord1 !mxE big_ord1 !mxE. case: (i == 0); toR; eqR; atoms; ring. }
      rewrite /len sq_pair sq_one. have -> : Rmult (7 / 5) (sqrt (Rmult (v 0 0) (v 0 0))) = sqrt (Rmult (Rmult (7 / 5) (7 / 5)) (Rmult (v 0 0) (v 0 0))).
      { rewrite (sqrt_mult_alt (Rmult (7 / 5) (7 / 5))); last lra. by rewrite (sqrt_square (7 / 5)); last lra. }
      apply: sqrt_le_1_alt. move: (x 0 0) (v 0 0) B1 => a b A.
      have := pow2_ge_0 b. have : Rle 1 (Rmult (Rmult 2 a) (Rmult 2 a)) by clear -A; nra.
      clear. move=> C D. nra.
    + move=> z. rewrite N /qf. rewrite ?big_ord1 !mxE ?big_ord1 ?mxE ?big_ord1 ?mxE. toR. atoms. apply: Req_le. eqR. ring.
    + move=> i. rewrite N mxE. have := tiny_small. move: (x 0 0) B1 => a A T. have : Rle 0 (Rmult (Rmult 2 a) (Rmult 2 a)) by clear -A; nra. lra.
  - have -> : pairv 1 1 - (sqf x + sqH x *m (one1 1 - x)) = pairv (Rminus 1 (Rplus (rnd64 (Rmult (x 0 0) (x 0 0))) (Rmult (Rmult 2 (x 0 0)) (Rminus 1 (x 0 0))))) 0.
    { apply/matrixP => i j. rewrite !ord1 !mxE big_ord1 !mxE. case: (i == 0); toR; eqR; atoms; ring. }
    rewrite /len sq_pair Rmult_0_l Rplus_0_r sqrt_Rsqr_abs. exact: C1.
  - rewrite len_one !mxE. toR. rewrite !big_ord_recl big_ord0 !mxE /=. toR.
    have -> : Rplus (Rmult (Rmult 2 (x 0 0)) (Rminus (9 / 8) 1)) (Rplus (Rmult 1 (Rminus (3 / 4) 1)) 0) = Rmult (1 / 4) (Rminus (x 0 0) 1) by field.
    rewrite Rabs_mult (Rabs_pos_eq (1 / 4)); last lra. rewrite Rplus_0_l. exact: Rle_refl.
  - have -> : pairv (9 / 8) (3 / 4) - sqf x = pairv (Rminus (9 / 8) (rnd64 (Rmult (x 0 0) (x 0 0)))) (Rminus (3 / 4) (x 0 0)).
    { apply/matrixP => i j. rewrite !ord1 !mxE. by case: (i == 0). }
    rewrite /len sq_pair. apply: Rle_trans (sqrt_le_1_alt _ _ C2) _. rewrite (_ : IZR 4 = Rmult 2 2); [rewrite sqrt_square; lra|eqR; ring].
Qed.
Lemma one_len (a b : R) : len (one1 a - one1 b) = Rabs (Rminus a b).
Proof. by rewrite len_one !mxE. Qed.
Lemma sqf_case (piv : 'M[R]_1 -> 'S_1) : exists H' x' J',
  unweighted_nls_f rnd64 (@dot_loop rnd64) (fun A b => ldlt_mx (piv A) rnd53 (msub_loop rnd53) A b) sqf sqH (pairv (9 / 8) (3 / 4)) (1 / 100000000000) 41 (sqH 0) (one1 (3 / 2)) (one1 0) = Ret (H', x', x', J') /\
  Rle (Rabs (Rminus (x' 0 0) 1)) (3 / 200000000000).
Proof.
  have [U0 U1] := u64_bounds. have [[W0 W1] _] := tiny_root.
  have HN : Rle (INR 2) 1000000 by rewrite /=; lra.
  have Hd := dot_loop_ok rnd64_rnd_ok. have I1 : INR 1 = R1 by [].
  have EV : vN 2 = Rmult 3 u64 by rewrite /vN /=; ring.
  have SV : Rmult 9 (Rmult (INR 1 + 2) u64) = Rmult 27 u64 by rewrite I1; exact: sv_val.
  have HE : Rle (Rmult (Rmult 2 (INR 1)) (Rplus (Rmult 2 (Rmult 27 u64)) (Rmult 6 (vN 2)))) 1 by rewrite I1 EV; lra.
  have HS := @ldlt_solves_in rnd64 rnd53 (@dot_loop rnd64) (msub_loop rnd53) 2 2 1 piv sqf sqH _ _ _ _ _ _ _ _ _ _ _ rnd53_rel Hd (msub_loop_ok _ rnd53_rel) HN isT isT Rlt_0_1 (Rle_refl 1) sqf_tame.
  rewrite SV in HS. have {HS} HS := HS HE.
  have s0 : Rlt 0 (7 / 5) by lra. have sv0 : Rle 0 (Rmult 27 u64) by lra.
  have P0 : Rle 0 (Rmult 3 u64) /\ Rle 0 (1 / 2) /\ Rle 0 0 /\ Rle 0 (1 / 4) by lra.
  have HY : Rle (sqrt tiny64) 2 by lra. have HX : Rle (sqrt tiny64) 1 by lra.
  have Xs : Rle (len (one1 1)) 1 by rewrite len_one mxE Rabs_R1; exact: Rle_refl.
  have NE : noise (7 / 5) (Rmult 3 u64) 0 (Rmult (Rplus (Rmult 2 (Rmult 27 u64)) (Rmult 6 (vN 2))) (Rdiv (INR 1) 1)) 2 1 = noise (7 / 5) (Rmult 3 u64) 0 (Rmult (Rmult 72 u64) (Rdiv 1 1)) 2 1.
  { rewrite I1 EV. congr noise. eqR. field. }
  have k1 : Rlt (rate (7 / 5) (1 / 2) (1 / 4)) 1 by have := rate_val; lra.
  have L12 : len (one1 (3 / 2) - one1 1) = Rdiv 1 2 by rewrite one_len Rabs_pos_eq; lra.
  have B : Rle (len (one1 (3 / 2) - one1 1)) (1 / 2) by rewrite L12; exact: Rle_refl.
  have Er : Rlt (1 / 100000000000) (norm_f rnd64 (@dot_loop rnd64) (map_mx rnd64 (one1 0 - one1 (3 / 2)))).
  { have [_ K] := @norm_f_ok rnd64 (@dot_loop rnd64) 2 1 rnd64_rnd_ok Hd HN isT isT (one1 0) (one1 (3 / 2)).
    move: K. rewrite one_len Rabs_left; last lra. lra. }
  have [T1 [T2 T3]] := tol L12 rate_val (conj noise_pos noise_val) (conj (Rlt_le _ _ W0) W1). rewrite -NE in T1 T2 T3.
  have [H' [x' [J' [E S]]]] := @nls_f_converges rnd64 (@dot_loop rnd64) 2 2 1 _ rnd64_rnd_ok Hd HN isT isT isT sqf sqH _ _ _ _ _ _ _ _ _ _ _ _ _ sqf_tame HS s0 Rlt_0_1 (Rle_refl 1) sv0 P0 HY HX Xs HE k1 T3 _ 40 41 (sqH 0) (one1 (3 / 2)) (one1 0) isT Er B T1.
  exists H', x', J'. split; first exact: E. have := Rle_trans _ _ _ S T2. by rewrite len_one !mxE.
Qed.
Lemma cycle_tame : tame_f zero_one unit_lin (0 : 'cV[R]_1) 0 0 1 1 1 0 0 0 1 1.
Proof.
  move=> x. rewrite subr0 => B. have Z k : len (0 : 'cV[R]_k) = R0 by rewrite /len /sq big1 ?sqrt_0 // => i _; rewrite mxE; exact: Rmult_0_l.
  have L1 : len (- c1 (IZR (-1))) = R1.
  { rewrite len_one !mxE. toR. rewrite Ropp_involutive. exact: Rabs_R1. }
  rewrite /unit_lin trmx1 !mul1mx subr0 sub0r. split.
  - split; first by move=> v; rewrite mul1mx Rmult_1_l; exact: Rle_refl.
    split.
    + move=> z. rewrite /qf mulmx1 Rmult_1_l big_ord1 !mxE big_ord1 !mxE eqxx mulr1n. toR. atoms. apply: Req_le. eqR. ring.
    + move=> i. rewrite mxE eqxx mulr1n. have := tiny_small. toR. lra.
  - rewrite Rmult_0_l Rplus_0_r !sub0r /zero_one. case: Req_EM_T => [E|E] /=.
    + have -> : x = 0 by apply/matrixP => i j; rewrite !ord1 mxE. rewrite subr0. apply: Req_le. exact: L1.
    + rewrite addrN oppr0 Z. lra.
  - rewrite Z. lra.
  - rewrite sub0r /zero_one. case: Req_EM_T => [E|E] /=; first by apply: Req_le; exact: L1. by rewrite len_opp.
Qed.
