(** Rounding errors of nonlinear least squares: with the LDLT solver, without
    rounding, a run that does not end, and a case. *)
From Coq Require Import Reals ZArith Lra Lia Psatz.
From mathcomp Require Import all_ssreflect all_fingroup all_algebra.
From Verif Require Import Base BaseMx ModelEigen ModelKalman ModelBls ModelFilterFloat ModelBlsFloat ModelNlsFloat ModelLdltFloat ModelLdltMx ModelDate SpecFloatOps SpecKalman SpecFilter SpecBls SpecFilterFloat SpecUpdateFloat SpecBlsFloat SpecLdltFloat SpecNlsFloat
  ProofMx ProofKalman ProofKalman2 ProofKalman3 ProofKalman5 ProofBls ProofBls2 ProofStrapdownFloat ProofFilterFloat ProofUpdateFloat ProofLongFloat ProofBlsFloat ProofBlsFloat2 ProofBlsFloat4 ProofLdlt7 ProofLdlt8 ProofGaussNewton ProofNlsFloat.
From Verif Require ProofDate ProofRnd.
Set Implicit Arguments.
Unset Strict Implicit.
Unset Printing Implicit Defensive.
Import GRing.Theory.
Local Open Scope ring_scope.
Local Open Scope outcome_scope.

(** ** Eigen's LDLT, pivots in any order *)
Lemma ldlt_solves_in (r rs : R -> R) (dot : dot_fun) msub (N m n : nat) (piv : 'M[R]_n -> 'S_n) (hF : 'cV[R]_n -> 'cV[R]_m) (HF : 'cV[R]_n -> 'M[R]_(m, n)) (y hs : 'cV[R]_m) (xs : 'cV[R]_n) s l t0 t1 g0 g1 Y rho :
  rel_ok rs -> dot_ok dot -> msub_ok msub -> Rle (INR N) 1000000 -> (n <= N)%N -> (m <= N)%N -> Rlt 0 l -> Rle l 1 ->
  tame_f hF HF y hs xs s l t0 t1 g0 g1 Y rho ->
  let sv := Rmult 9 (Rmult (INR n + 2) u64) in
  Rle (Rmult (Rmult 2 (INR n)) (Rplus (Rmult 2 sv) (Rmult 6 (vN N)))) l ->
  solves_in r dot (fun A b => ldlt_mx (piv A) rs msub A b) hF HF y xs rho sv.
Proof.
  move=> Hr Hd Hs HN Hn Hm L0 L1 T sv HE x B A b. have [[_ [HA TA]] _ _ _] := T x B.
  have [V0 [V1 V2]] := vN_bounds HN.
  have HP : psd ((HF x)^T *m HF x) by have := psd_congrT (HF x) (psd1 m); rewrite mulmx1.
  apply: (@ProofLdlt7.solves rs msub N n (piv A) Hr Hs HN Hn l L0 L1 ((HF x)^T *m HF x) A (Rmult 6 (vN N)) b (proj1 HP) _ HA _ _ HE).
  - move=> i. exact: Rlt_le_trans tiny_pos (TA i).
  - move=> i j. have := proj1 (near_normal Hd HN Hm (HF x) i j). have := size_normal i j TA. have : Rle 0 (Rmult 3 (vN N)) by lra.
    rewrite -/A. move: (size_mul _ _ i j) (Rmult (sqrt _) _) => a b' P Q K. apply: Rle_trans K _. have := Rmult_le_compat_l _ _ _ P Q. lra.
  - lra.
Qed.

(** ** Without rounding *)
Section Exact.
Let D : dot_fun := fun k a b => \sum_(i < k) a i * b i.
Lemma norm_exact n (v : 'cV[R]_n) : norm_f id D v = len v.
Proof. by []. Qed.
Lemma map_id m n (A : 'M[R]_(m, n)) : map_mx id A = A.
Proof. apply/matrixP => i j. by rewrite mxE. Qed.
Lemma loop_exact (ldlt : solver) m n (solve : 'M[R]_n -> 'cV[R]_n -> outcome 'cV[R]_n) p q (hF : 'cV[R]_n -> 'cV[R]_m) (HF : 'cV[R]_n -> 'M[R]_(m, n)) (y : 'cV[R]_m) eps :
  (forall A b, ldlt (DM A) (DV b) = (x <- solve A b ;; Ret (DV x))) -> predicts p hF -> linearizes q HF ->
  forall fuel (H : 'M[R]_(m, n)) (x x1 res : 'cV[R]_n) yx, 
  (s <- unweighted_loop fuel ldlt p q (DV y) eps (IT (DM H) (DV x) (DV x1) yx (DV res)) ;; Ret (s.1, (it_H s.2, it_x s.2, it_x1 s.2))) =
  (s <- nls_loop_f id D HF eps (nls_step_f id D solve hF HF y) fuel H x x1 res ;; Ret (true, (DM s.1.1, DV s.1.2, DV s.2))).
Proof.
  move=> HS Hp Hq. elim=> [|f IH] H x x1 res yx /=; rewrite normv_len norm_exact; case: Rlt_dec => //= _.
  rewrite Hp /= Hq /= /tr. eig. rewrite HS /nls_step_f /normal_f /rhs_f !mul_exact !map_id. case: (solve _ _) => //= c. rewrite !map_id. eig. exact: IH.
Qed.
Lemma exact_nls (ldlt : solver) m n (solve : 'M[R]_n -> 'cV[R]_n -> outcome 'cV[R]_n) p q (hF : 'cV[R]_n -> 'cV[R]_m) (HF : 'cV[R]_n -> 'M[R]_(m, n)) (y : 'cV[R]_m) eps fuel (H : 'M[R]_(m, n)) (x x1 : 'cV[R]_n) J :
  (n <= m)%N -> (forall A b, ldlt (DM A) (DV b) = (x <- solve A b ;; Ret (DV x))) -> predicts p hF -> linearizes q HF ->
  UnweightedNonlinearLeastSquares fuel ldlt p q (DV y) (DM H) (DV x) eps (DV x1) J =
  (s <- unweighted_nls_f id D solve hF HF y eps fuel H x x1 ;; Ret (true, (DM s.1.1.1, DV s.1.1.2, DV s.1.2, s.2))).
Proof.
  move=> Hmn HS Hp Hq. rewrite /UnweightedNonlinearLeastSquares !wrong_size_ok /= eqxx /= ltnNge Hmn /=. eig.
  have := @loop_exact ldlt m n solve p q hF HF y eps HS Hp Hq fuel H x x1 (x1 - x) (zerov 0). rewrite /unweighted_nls_f map_id.
  case: (unweighted_loop _ _ _ _ _ _ _) => [[b' s]| | | |] /=; case: (nls_loop_f _ _ _ _ _ _ _ _ _ _) => [[[H' x'] x1']| | | |] //=.
  move=> [-> -> -> ->] /=. by rewrite cost_ok /= cost_exact.
Qed.
End Exact.

(** ** Errors of the model above the tolerance: a run that does not end *)
Definition zero_one (v : 'cV[R]_1) : 'cV[R]_1 := if Req_EM_T (v 0 0) 0 then const_mx (IZR (-1)) else v.
Definition unit_lin (v : 'cV[R]_1) : 'M[R]_1 := 1%:M.
Lemma r0 : rnd64 0 = R0. Proof. exact: ProofRnd.rnd64_0. Qed.
Lemma r1 : rnd64 1 = R1. Proof. apply: (@ProofDate.rnd64_int 1). by []. Qed.
Lemma rm1 : rnd64 (IZR (-1)) = IZR (-1). Proof. apply: (@ProofDate.rnd64_int (-1)). by []. Qed.
Section Cycle.
Local Open Scope R_scope.
Lemma dot1 (a b : 'I_1 -> R) : dot_loop rnd64 a b = rnd64 (0 + rnd64 (a ord_max * b ord_max)).
Proof. by []. Qed.
Lemma sum01 : 0 + 1 = 1. Proof. ring. Qed.
Lemma sum11 : 1 - 1 = 0. Proof. ring. Qed.
Lemma prod11 : 1 * 1 = 1. Proof. ring. Qed.
Lemma prodm1 : 1 * -1 = -1. Proof. ring. Qed.
Lemma prodmm : -1 * -1 = 1. Proof. ring. Qed.
Lemma sum0m : 0 + -1 = -1. Proof. ring. Qed.
Lemma sum1m : 1 + -1 = 0. Proof. ring. Qed.
Lemma sub01 : 0 - 1 = -1. Proof. ring. Qed.
Lemma sub0m : 0 - -1 = 1. Proof. ring. Qed.
Lemma div1 a : Rdivc a 1 = Ret a.
Proof. rewrite /Rdivc. case: Req_EM_T => [?|_]; first lra. congr Ret. field. Qed.
End Cycle.
Definition c1 (a : R) : 'cV[R]_1 := const_mx a.
Lemma c1_eq (v : 'cV[R]_1) a : v 0 0 = a -> v = c1 a.
Proof. move=> E. apply/matrixP => i j. by rewrite !ord1 mxE. Qed.
Lemma cycle_up : nls_step_f rnd64 (@dot_loop rnd64) (solve1_f rnd64) zero_one unit_lin (0 : 'cV[R]_1) (c1 0) = Ret (c1 1).
Proof.
  rewrite /nls_step_f. have -> : zero_one (c1 0) = c1 (IZR (-1)) by rewrite /zero_one mxE; case: Req_EM_T.
  have -> : map_mx rnd64 (0 - c1 (IZR (-1))) = c1 1 by apply: c1_eq; rewrite !mxE; toR; rewrite -/(Rminus 0 (IZR (-1))) sub0m r1.
  have -> : normal_f (@dot_loop rnd64) (unit_lin (c1 0)) = c1 1.
  { apply: c1_eq. rewrite mxE dot1 !mxE /=. toR. by rewrite prod11 r1 sum01 r1. }
  have -> : rhs_f (@dot_loop rnd64) (unit_lin (c1 0)) (c1 1) = c1 1.
  { apply: c1_eq. rewrite mxE dot1 !mxE /=. toR. by rewrite prod11 r1 sum01 r1. }
  rewrite /solve1_f !mxE div1 /= r1. congr Ret. apply: c1_eq. rewrite !mxE. toR. by rewrite sum01 r1.
Qed.
Lemma cycle_down : nls_step_f rnd64 (@dot_loop rnd64) (solve1_f rnd64) zero_one unit_lin (0 : 'cV[R]_1) (c1 1) = Ret (c1 0).
Proof.
  rewrite /nls_step_f. have -> : zero_one (c1 1) = c1 1 by rewrite /zero_one mxE; case: Req_EM_T => // K; exfalso; move: K; toR; lra.
  have -> : map_mx rnd64 (0 - c1 1) = c1 (IZR (-1)) by apply: c1_eq; rewrite !mxE; toR; rewrite -/(Rminus 0 1) sub01 rm1.
  have -> : normal_f (@dot_loop rnd64) (unit_lin (c1 1)) = c1 1.
  { apply: c1_eq. rewrite mxE dot1 !mxE /=. toR. by rewrite prod11 r1 sum01 r1. }
  have -> : rhs_f (@dot_loop rnd64) (unit_lin (c1 1)) (c1 (IZR (-1))) = c1 (IZR (-1)).
  { apply: c1_eq. rewrite mxE dot1 !mxE /=. toR. by rewrite prodm1 rm1 sum0m rm1. }
  rewrite /solve1_f !mxE div1 /= rm1. congr Ret. apply: c1_eq. rewrite !mxE. toR. by rewrite sum1m r0.
Qed.
Lemma norm_up : norm_f rnd64 (@dot_loop rnd64) (map_mx rnd64 (c1 1 - c1 0)) = 1.
Proof.
  rewrite /norm_f dot1 !mxE. toR. rewrite -/(Rminus 1 0) Rminus_0_r r1 prod11 r1 sum01 r1 sqrt_1. exact: r1.
Qed.
Lemma norm_down : norm_f rnd64 (@dot_loop rnd64) (map_mx rnd64 (c1 0 - c1 1)) = 1.
Proof.
  rewrite /norm_f dot1 !mxE. toR. rewrite -/(Rminus 0 1) sub01 rm1 prodmm r1 sum01 r1 sqrt_1. exact: r1.
Qed.
Lemma cycle_forever eps fuel H x1 : Rlt eps 1 ->
  nls_loop_f rnd64 (@dot_loop rnd64) unit_lin eps (nls_step_f rnd64 (@dot_loop rnd64) (solve1_f rnd64) zero_one unit_lin (0 : 'cV[R]_1)) fuel H (c1 0) x1 (map_mx rnd64 (c1 0 - c1 1)) = NoFuel /\
  nls_loop_f rnd64 (@dot_loop rnd64) unit_lin eps (nls_step_f rnd64 (@dot_loop rnd64) (solve1_f rnd64) zero_one unit_lin (0 : 'cV[R]_1)) fuel H (c1 1) x1 (map_mx rnd64 (c1 1 - c1 0)) = NoFuel.
Proof.
  move=> E. elim: fuel H x1 => [|f IH] H x1.
  - rewrite /= norm_up norm_down. by case: Rlt_dec.
  - rewrite /= norm_up norm_down cycle_up cycle_down /=. case: Rlt_dec => [a|//] /=. split; [exact: (proj2 (IH _ _))|exact: (proj1 (IH _ _))].
Qed.
Lemma cycle_call eps fuel H : Rlt eps 1 ->
  unweighted_nls_f rnd64 (@dot_loop rnd64) (solve1_f rnd64) zero_one unit_lin (0 : 'cV[R]_1) eps fuel H (c1 0) (c1 1) = NoFuel.
Proof.
  move=> E. rewrite /unweighted_nls_f. case: fuel => [|f] /=; rewrite norm_up; case: Rlt_dec => [a|//] /=; first by [].
  rewrite cycle_up /=.
  by rewrite (proj2 (cycle_forever f _ _ E)).
Qed.
