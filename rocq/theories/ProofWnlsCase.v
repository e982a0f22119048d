(** A case of weighted nonlinear least squares in double arithmetic: a value,
    trusted more, and its square. *)
From Coq Require Import Reals Lra.
From mathcomp Require Import all_ssreflect all_fingroup all_algebra.
From Verif Require Import Base BaseMx ModelDate ModelFilterFloat ModelLdltMx ModelLdltFloat ModelBlsFloat ModelNlsFloat SpecFloatOps SpecKalman SpecFilter SpecBls SpecFilterFloat SpecUpdateFloat SpecBlsFloat SpecLdltFloat SpecNlsFloat SpecWnlsFloat
  ProofMx ProofUpdateFloat ProofBlsFloat ProofStrapdownFloat ProofFilterFloat ProofBlsFloat3 ProofLdlt7 ProofLdlt8 ProofGaussNewton ProofNlsFloat ProofNlsFloat2 ProofNlsCase ProofWnlsFloat.
Set Implicit Arguments.
Unset Strict Implicit.
Unset Printing Implicit Defensive.
Import GRing.Theory.
Local Open Scope ring_scope.
Local Open Scope outcome_scope.

Section Scal.
Local Open Scope R_scope.
Lemma wcase_size u a q t : 0 < u <= 1 / 1000000 -> 0 <= t <= 1 / 1000 -> 1 / 2 <= a <= 3 / 2 -> Rabs (q - a * a) <= 5 / 2 * u ->
  0 <= Rabs (9 / 8 - q) + t <= 3 / 2 /\ 0 <= Rabs (15 / 16 - a) + t <= 3 / 5.
Proof.
  move=> U T A B. have [B1 B2] : - (5 / 2 * u) <= q - a * a <= 5 / 2 * u by move: B; rewrite /Rabs; case: Rcase_abs; lra.
  have C1 : 1 / 4 <= a * a by nra. have C2 : a * a <= 9 / 4 by nra.
  have := Rabs_pos (9 / 8 - q). have := Rabs_pos (15 / 16 - a).
  have : Rabs (9 / 8 - q) <= 9 / 8 + 5 / 2 * u by rewrite /Rabs; case: Rcase_abs; lra.
  have : Rabs (15 / 16 - a) <= 9 / 16 by rewrite /Rabs; case: Rcase_abs; lra. lra.
Qed.
Lemma wcase_len a b : 0 <= a <= 3 / 2 -> 0 <= b <= 3 / 5 -> a * a + 4 * (b * b) <= 2 * 2.
Proof. move=> A B. nra. Qed.
Lemma wnoise_val : 0 <= noise 2 (3 * u64) 0 (90 * u64 * (1 / 1)) 2 1 <= 931 * u64.
Proof. rewrite /noise. have [U _] := u64_bounds. lra. Qed.
Lemma wrate_val : 0 <= rate 2 (1 / 2) (1 / 4) <= 1 / 2.
Proof. rewrite /rate. lra. Qed.
End Scal.

Definition w14 : 'M[R]_2 := \matrix_(i, j) if i == j then (if i == 0 then 1 else IZR 4) else 0.
Lemma w14_off i j : i != j -> w14 i j = 0. Proof. move=> K. by rewrite mxE (negbTE K). Qed.
Lemma w14_diag i : Rle 0 (w14 i i). Proof. rewrite mxE eqxx. case: (i == 0); toR; lra. Qed.
Lemma qf14 a b : qf w14 (pairv a b) = Rplus (Rmult a a) (Rmult 4 (Rmult b b)).
Proof. rewrite /qf !mxE !big_ord_recl big_ord0 !mxE !big_ord_recl !big_ord0 !mxE /=. toR. eqR. ring. Qed.
Lemma pair_eq (v : 'cV[R]_2) a b : v 0 0 = a -> v 1 0 = b -> v = pairv a b.
Proof. move=> E1 E2. apply/matrixP => i j. rewrite !ord1 mxE. case: i => -[|[|//]] p /=; [rewrite -E1|rewrite -E2]; congr (v _ _); exact: val_inj. Qed.

Lemma wsqf_tame : tame_d w14 sqf sqH (pairv (9 / 8) (15 / 16)) (pairv 1 1) (one1 1) 2 1 (Rmult 3 u64) (1 / 2) 0 (1 / 4) 2 (1 / 2).
Proof.
  move=> x. rewrite len_one !mxE => B. have B' : Rle (Rabs (Rminus (x 0 0) 1)) (1 / 2) by exact: B.
  have [B1 B2] : Rle (1 / 2) (x 0 0) /\ Rle (x 0 0) (3 / 2) by move: B'; rewrite /Rabs; case: Rcase_abs; lra.
  have [U0 U1] := u64_bounds. have U : Rle u64 (1 / 1000000) by lra. have Tp := tiny_pos. have Ts := tiny_small.
  have RS := rnd_sq rnd64_rnd_ok (conj B1 B2).
  have [C1 _] := case_sq (conj U0 U) (conj B1 B2) RS.
  have Ts3 : Rle tiny64 (1 / 1000) by lra.
  have [[Z1 Z2] [Z3 Z4]] := @wcase_size u64 _ _ tiny64 (conj U0 U) (conj (Rlt_le _ _ Tp) Ts3) (conj B1 B2) RS.
  move=> A z.
  have N : A = one1 (Rplus (Rmult (Rmult 2 (x 0 0)) (Rmult 2 (x 0 0))) 4).
  { apply/matrixP => i j. rewrite !ord1 !mxE !big_ord_recl big_ord0 !mxE !big_ord_recl !big_ord0 !mxE /=. toR. eqR. atoms. ring. }
  have A5 : Rle 5 (Rplus (Rmult (Rmult 2 (x 0 0)) (Rmult 2 (x 0 0))) 4).
  { move: (x 0 0) B1 => a Ha. clear -Ha. nra. }
  have EZ : z = pairv (Rplus (Rabs (Rminus (9 / 8) (rnd64 (Rmult (x 0 0) (x 0 0))))) tiny64) (Rplus (Rabs (Rminus (15 / 16) (x 0 0))) tiny64).
  { apply: pair_eq; by rewrite !mxE. }
  split.
  - split.
    + move=> v. have -> : sqH x *m v = pairv (Rmult (Rmult 2 (x 0 0)) (v 0 0)) (v 0 0).
      { apply/matrixP => i j. rewrite !ord1 !mxE big_ord1 !mxE. case: (i == 0); toR; eqR; atoms; ring. }
      rewrite /wlen qf14 /len sq_one. have -> : Rmult 2 (sqrt (Rmult (v 0 0) (v 0 0))) = sqrt (Rmult (Rmult 2 2) (Rmult (v 0 0) (v 0 0))).
      { rewrite (sqrt_mult_alt (Rmult 2 2)); last lra. by rewrite (sqrt_square 2); last lra. }
      apply: sqrt_le_1_alt. move: (x 0 0) (v 0 0) => a b. have := Rle_0_sqr (Rmult a b). have := Rle_0_sqr b. rewrite /Rsqr. clear. move=> C D. lra.
    + move=> w. rewrite N /qf ?big_ord1 !mxE ?big_ord1 ?mxE ?big_ord1 ?mxE. toR. atoms. apply: Req_le. eqR. ring.
  - split; last split.
    + move=> i j. rewrite N !ord1 [one1 _ _ _]mxE !big_ord_recl big_ord0 !mxE /=. toR. rewrite Rabs_R1 (Rabs_pos_eq (Rmult 2 (x 0 0))); last lra.
      apply: Rle_trans A5. have K : Rle (Rplus 1 (Rplus (Rmult 2 (x 0 0)) (Rplus 1 0))) 5 by lra. have := Rmult_le_compat_l _ _ _ (Rlt_le _ _ Tp) K. atoms. lra.
    + move=> i. rewrite N !ord1 [one1 _ _ _]mxE EZ !big_ord_recl big_ord0 !mxE /=. toR. apply: Rle_trans A5.
      move: (Rplus (Rabs _) _) (Rplus (Rabs _) _) Z2 Z4 => a b Ha Hb. have K : Rle (Rplus 1 (Rplus a (Rplus b 0))) 5 by lra. have := Rmult_le_compat_l _ _ _ (Rlt_le _ _ Tp) K. lra.
    + rewrite EZ !big_ord_recl big_ord0 !mxE /=. toR.
      move: (Rplus (Rabs _) _) (Rplus (Rabs _) _) Z2 Z4 => a b Ha Hb. have K : Rle (Rplus 1 (Rplus a (Rplus b 0))) 5 by lra. have := Rmult_le_compat_l _ _ _ (Rlt_le _ _ Tp) K. lra.
  - have -> : pairv 1 1 - (sqf x + sqH x *m (one1 1 - x)) = pairv (Rminus 1 (Rplus (rnd64 (Rmult (x 0 0) (x 0 0))) (Rmult (Rmult 2 (x 0 0)) (Rminus 1 (x 0 0))))) 0.
    { apply/matrixP => i j. rewrite !ord1 !mxE big_ord1 !mxE. case: (i == 0); toR; eqR; atoms; ring. }
    rewrite /wlen qf14 !Rmult_0_r Rplus_0_r sqrt_Rsqr_abs. exact: C1.
  - rewrite len_one. have -> : ((sqH x)^T *m w14 *m (pairv (9 / 8) (15 / 16) - pairv 1 1)) 0 0 = Rmult (1 / 4) (Rminus (x 0 0) 1).
    { rewrite !mxE !big_ord_recl big_ord0 !mxE !big_ord_recl !big_ord0 !mxE /=. toR. eqR. atoms. field. }
    rewrite Rabs_mult (Rabs_pos_eq (1 / 4)); last lra. rewrite Rplus_0_l. exact: Rle_refl.
  - rewrite EZ /wlen qf14. apply: Rle_trans (sqrt_le_1_alt _ _ (wcase_len (conj Z1 Z2) (conj Z3 Z4))) _. rewrite sqrt_square; lra.
Qed.
Lemma wsqf_case (piv : 'M[R]_1 -> 'S_1) : exists H' x' J',
  weighted_nls_f rnd64 (@dot_loop rnd64) (fun A b => ldlt_mx (piv A) rnd53 (msub_loop rnd53) A b) sqf sqH (pairv (9 / 8) (15 / 16)) w14 (1 / 100000000000) 41 (sqH 0) (one1 (3 / 2)) (one1 0) = Ret (H', x', x', J') /\
  Rle (Rabs (Rminus (x' 0 0) 1)) (3 / 200000000000).
Proof.
  have [U0 U1] := u64_bounds. have [[W0 W1] _] := tiny_root.
  have HN : Rle (INR 2) 1000000 by rewrite /=; lra.
  have Hd := dot_loop_ok rnd64_rnd_ok. have I1 : INR 1 = R1 by [].
  have EV : vN 2 = Rmult 3 u64 by rewrite /vN /=; ring.
  have SV : Rmult 9 (Rmult (INR 1 + 2) u64) = Rmult 27 u64 by rewrite I1; exact: sv_val.
  have q1 : Rle 1 2 by lra. have Y0 : Rle 0 2 by lra. have HW := diag_psd w14_off w14_diag.
  have T := tame_diag w14_off w14_diag Y0 wsqf_tame.
  have HE : Rle (Rmult (Rmult 2 (INR 1)) (Rplus (Rmult 2 (Rmult 27 u64)) (Rmult (Rmult 6 2) (vN 2)))) 1 by rewrite I1 EV; lra.
  have HS := @ldlt_solves_w rnd64 rnd53 (@dot_loop rnd64) (msub_loop rnd53) 2 2 1 piv w14 2 sqf sqH _ _ _ _ _ _ _ _ _ _ _ rnd53_rel Hd (msub_loop_ok _ rnd53_rel) HN isT isT Rlt_0_1 (Rle_refl 1) HW q1 T.
  rewrite SV in HS. have {HS} HS := HS HE.
  have s0 : Rlt 0 2 by lra. have sv0 : Rle 0 (Rmult 27 u64) by lra.
  have P0 : Rle 0 (Rmult 3 u64) /\ Rle 0 (1 / 2) /\ Rle 0 0 /\ Rle 0 (1 / 4) by lra.
  have HX : Rle (sqrt tiny64) 1 by lra.
  have Xs : Rle (len (one1 1)) 1 by rewrite len_one mxE Rabs_R1; exact: Rle_refl.
  have NE : noise 2 (Rmult 3 u64) 0 (Rmult (Rplus (Rmult 2 (Rmult 27 u64)) (Rmult (Rmult 6 2) (vN 2))) (Rdiv (INR 1) 1)) 2 1 = noise 2 (Rmult 3 u64) 0 (Rmult (Rmult 90 u64) (Rdiv 1 1)) 2 1.
  { rewrite I1 EV. congr noise. eqR. field. }
  have k1 : Rlt (rate 2 (1 / 2) (1 / 4)) 1 by have := wrate_val; lra.
  have L12 : len (one1 (3 / 2) - one1 1) = Rdiv 1 2 by rewrite one_len Rabs_pos_eq; lra.
  have B : Rle (len (one1 (3 / 2) - one1 1)) (1 / 2) by rewrite L12; exact: Rle_refl.
  have Er : Rlt (1 / 100000000000) (norm_f rnd64 (@dot_loop rnd64) (map_mx rnd64 (one1 0 - one1 (3 / 2)))).
  { have [_ K] := @norm_f_ok rnd64 (@dot_loop rnd64) 2 1 rnd64_rnd_ok Hd HN isT isT (one1 0) (one1 (3 / 2)).
    move: K. rewrite one_len Rabs_left; last lra. lra. }
  have [T1 [T2 T3]] := tol L12 wrate_val wnoise_val (conj (Rlt_le _ _ W0) W1). rewrite -NE in T1 T2 T3.
  have [H' [x' [J' [E S]]]] := @wnls_f_converges rnd64 (@dot_loop rnd64) 2 2 1 _ w14 2 rnd64_rnd_ok Hd HN isT isT isT HW q1 sqf sqH _ _ _ _ _ _ _ _ _ _ _ _ _ T HS s0 Rlt_0_1 (Rle_refl 1) sv0 P0 Y0 HX Xs HE k1 T3 _ 40 41 (sqH 0) (one1 (3 / 2)) (one1 0) isT Er B T1.
  exists H', x', J'. split; first exact: E. have := Rle_trans _ _ _ S T2. by rewrite len_one !mxE.
Qed.
