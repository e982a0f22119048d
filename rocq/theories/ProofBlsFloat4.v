(** Rounding errors of least squares: diagonal weights, one state and a case. *)
From Coq Require Import Reals Lra Psatz FunctionalExtensionality.
From mathcomp Require Import all_ssreflect all_algebra.
From Verif Require Import Base BaseMx ModelEigen ModelKalman ModelBls ModelFilterFloat ModelBlsFloat SpecFloatOps SpecKalman SpecFilter SpecBls SpecFilterFloat SpecUpdateFloat SpecBlsFloat ModelDate
  ProofMx ProofKalman ProofKalman2 ProofKalman3 ProofBls ProofBls2 ProofStrapdownFloat ProofFilterFloat ProofUpdateFloat ProofDisturb2 ProofLopsided ProofLongFloat ProofBlsFloat ProofBlsFloat2 ProofBlsFloat3.
Set Implicit Arguments.
Unset Strict Implicit.
Unset Printing Implicit Defensive.
Import GRing.Theory.

Section Scal.
Local Open Scope R_scope.
Lemma div_solved u t a b x : 0 < u <= 1 / 1000 -> 0 < a -> t * a <= Rabs b -> 0 < t -> Rabs (x - b / a) <= u * Rabs (b / a) + u * t ->
  exists E, Rabs E <= 3 * u * a /\ (a + E) * x = b.
Proof.
  move=> U A T T0 X. have EB : b = b / a * a by field; lra. set q := b / a in EB X *. rewrite EB Rabs_mult (Rabs_right a) in T; last lra.
  have QT : t <= Rabs q by apply: (Rmult_le_reg_r a) => //; lra.
  have D : Rabs (x - q) <= 2 * u * Rabs q by nra.
  have XA : (1 - 2 * u) * Rabs q <= Rabs x. { have := Rabs_triang (q - x) x. have -> : q - x + x = q by ring. rewrite Rabs_minus_sym. lra. }
  have XP : 0 < Rabs x by nra. have XN : x <> 0 by move=> K; rewrite K Rabs_R0 in XP; lra.
  exists ((q - x) * a / x). split; last by rewrite EB; field.
  rewrite /Rdiv !Rabs_mult Rabs_inv (Rabs_right a); last lra. apply: (Rmult_le_reg_r (Rabs x)) => //. rewrite Rmult_assoc Rinv_l; last lra.
  rewrite Rmult_1_r Rabs_minus_sym. have Q0 := Rabs_pos q.
  have K1 := Rmult_le_compat_l (3 * u) _ _ ltac:(lra) XA. have K2 : u * u * Rabs q <= u * (1 / 1000) * Rabs q by apply: Rmult_le_compat_r => //; apply: Rmult_le_compat_l; lra.
  have K3 : 0 <= u * Rabs q by apply: Rmult_le_pos; lra.
  have : 2 * u * Rabs q <= 3 * u * Rabs x by lra. move=> K. have := Rmult_le_compat_r a _ _ ltac:(lra) (Rle_trans _ _ _ D K). lra.
Qed.
Lemma case_scal u x q : 0 < u <= 1 / 9000000000000000 -> sqrt (1 * 3) * Rabs (x - q) <= 4 * ((2 * (3 * u) + 6 * ((3 + 1) * u)) * (1 / 1)) * sqrt 6 -> Rabs (x - q) <= 2 / 100000000000000.
Proof.
  move=> U H. have S3 : 173 / 100 <= sqrt (1 * 3). { apply: Rsqr_incr_0_var; last exact: sqrt_pos. rewrite /Rsqr sqrt_sqrt; lra. }
  have S6 : sqrt 6 <= 245 / 100. { apply: Rsqr_incr_0_var; last lra. rewrite /Rsqr sqrt_sqrt; lra. }
  have A := Rabs_pos (x - q). have : 4 * ((2 * (3 * u) + 6 * ((3 + 1) * u)) * (1 / 1)) * sqrt 6 <= 4 * ((2 * (3 * u) + 6 * ((3 + 1) * u)) * (1 / 1)) * (245 / 100) by apply: Rmult_le_compat_l; lra.
  have : 173 / 100 * Rabs (x - q) <= sqrt (1 * 3) * Rabs (x - q) by apply: Rmult_le_compat_r. lra.
Qed.
End Scal.

Local Open Scope ring_scope.
Local Open Scope outcome_scope.

Lemma solve1_ok r (A : 'M[R]_1) (b x : 'cV[R]_1) : rnd_ok r -> Rlt 0 (A 0 0) -> Rle (Rmult tiny64 (A 0 0)) (Rabs (b 0 0)) ->
  solve1_f r A b = Ret x -> solved (Rmult 3 u64) A b x.
Proof.
  move=> Hr A0 T. rewrite /solve1_f /Rdivc. case: Req_EM_T => [K|_ /=]; first by exfalso; exact: (Rlt_not_eq _ _ A0 (esym K)).
  case=> <-. have [U0 U1] := u64_bounds.
  have H := Hr (Rdiv (b 0 0) (A 0 0)). rewrite eta_tiny in H.
  have [E [E1 E2]] := @div_solved u64 tiny64 (A 0 0) (b 0 0) _ ltac:(lra) A0 T tiny_pos H.
  exists (const_mx E). split.
  - move=> i j. rewrite !ord1 [const_mx _ _ _]mxE sqrt_sqrt; last lra. exact: E1.
  - apply/matrixP => i j. rewrite !ord1 mxE big_ord1 !mxE. exact: E2.
Qed.

(** The mean of three readings. *)
Definition ones3 : 'M[R]_(3, 1) := const_mx 1.
Definition y3 : 'cV[R]_3 := \matrix_(i, _) if i == ord_max then IZR 2 else 1.
Lemma ones_normal : (ones3^T *m ones3) 0 0 = IZR 3.
Proof. rewrite mxE !big_ord_recl big_ord0 !mxE. toR. lra. Qed.
Lemma ones_rhs : (ones3^T *m y3) 0 0 = IZR 4.
Proof. rewrite mxE !big_ord_recl big_ord0 !mxE /=. toR. lra. Qed.
Lemma y3_sq : sq y3 = IZR 6.
Proof. rewrite /sq !big_ord_recl big_ord0 !mxE /=. toR. lra. Qed.
Lemma ones_apart : apart 1 (ones3^T *m ones3).
Proof.
  move=> z. rewrite big_ord1 /qf. rewrite [X in Rle _ X]mxE big_ord1 [X in X * _]mxE big_ord1 !mxE. toR. rewrite Rmult_1_l. right. 
  move: (z 0 0) (\sum_j _) => a b. lra.
Qed.
Lemma mean_case : exists (xf : 'cV[R]_1) Jf, unweighted_f rnd64 (@dot_loop rnd64) (solve1_f rnd64) y3 ones3 = Ret (xf, Jf) /\ Rle (Rabs (Rminus (xf 0 0) (Rdiv 4 3))) (Rdiv 2 100000000000000).
Proof.
  have N3 : Rle (INR 3) 1000000 by rewrite /=; lra. have Hd := dot_loop_ok rnd64_rnd_ok. have [V0 [V1 V2]] := vN_bounds N3. have [U0 U1] := u64_bounds.
  have T0 := tiny_pos. have T1 := tiny_small.
  have A1 := proj1 (@near_normal _ 3 3 1 Hd N3 isT ones3 0 0). have B1 := proj1 (@near_rhs _ 3 3 1 Hd N3 isT ones3 y3 0 0).
  have S1 : size_mul ones3^T ones3 0 0 = Rplus 3 tiny64.
  { rewrite /size_mul mxE [const_mx _ _ _]mxE. congr (Rplus _ _). rewrite mxE !big_ord_recl big_ord0 !mxE !Rabs_R1. toR. lra. }
  have S2 : size_mul ones3^T y3 0 0 = Rplus 4 tiny64.
  { rewrite /size_mul mxE [const_mx _ _ _]mxE. congr (Rplus _ _). rewrite mxE !big_ord_recl big_ord0 !mxE /= !Rabs_R1 (Rabs_right 2); last by lra. toR. lra. }
  rewrite S1 ones_normal in A1. rewrite S2 ones_rhs in B1.
  set Af := normal_f _ _ in A1 *. set bf := rhs_f _ _ _ in B1 *.
  have A2 : Rle (Rabs (Rminus (Af 0 0) 3)) (Rdiv 1 10) by apply: Rle_trans A1 _; nra.
  have B2 : Rle (Rabs (Rminus (bf 0 0) 4)) (Rdiv 1 10) by apply: Rle_trans B1 _; nra.
  move: A2 B2 => /Rcomplements.Rabs_le_between A2 /Rcomplements.Rabs_le_between B2.
  have [xf Exf] : exists xf, solve1_f rnd64 Af bf = Ret xf.
  { rewrite /solve1_f /Rdivc. case: Req_EM_T => [K|_ /=]; last by eexists. exfalso. move: A2 K. change (Af ord0 ord0) with (Af 0 0). lra. }
  exists xf, (cost_f rnd64 (@dot_loop rnd64) y3 ones3 xf).
  have EF : unweighted_f rnd64 (@dot_loop rnd64) (solve1_f rnd64) y3 ones3 = Ret (xf, cost_f rnd64 (@dot_loop rnd64) y3 ones3 xf) by rewrite /unweighted_f -/Af -/bf Exf.
  split=> //.
  have HS x' : solve1_f rnd64 Af bf = Ret x' -> solved (Rmult 3 u64) Af bf x'.
  { apply: solve1_ok; first exact: rnd64_rnd_ok; first lra. rewrite (Rabs_right (bf 0 0)); last lra. nra. }
  have D i : Rle tiny64 ((ones3^T *m ones3) i i) by rewrite !ord1 ones_normal; lra.
  have Y : Rle tiny64 (sq y3) by rewrite y3_sq; lra.
  have E : Rle (Rmult (Rmult 2 (INR 1)) (Rplus (Rmult 2 (Rmult 3 u64)) (Rmult 6 (vN 3)))) 1 by rewrite /=; lra.
  have [x [BX [_ [_ [C _]]]]] := @unweighted_bound rnd64 (@dot_loop rnd64) 3 3 1 (solve1_f rnd64) rnd64_rnd_ok Hd N3 isT isT ones3 y3 1 (Rmult 3 u64) xf _ Rlt_0_1 (Rle_refl 1) ltac:(lra) ones_apart D Y HS EF E.
  have X : x 0 0 = Rdiv 4 3.
  { have := BX (const_mx (Rdiv 4 3)). rewrite /sq !big_ord_recl !big_ord0 !mxE !big_ord1 !mxE /=. toR. move: (x 0 0) => a K.
    have : Rle (Rmult (Rminus a (Rdiv 4 3)) (Rminus a (Rdiv 4 3))) 0 by lra. move=> Z. have : Rminus a (Rdiv 4 3) = 0; [|toR; lra]. apply: Rsqr_0_uniq. apply: Rle_antisym => //. exact: Rle_0_sqr. }
  have V : vN 3 = Rmult (Rplus 3 1) u64 by rewrite /vN /=; toR; lra.
  have := C 0. rewrite X V ones_normal /len y3_sq. apply: case_scal. have := u64_val. lra.
Qed.

(** Without rounding. *)
Section Exact.
Let D : dot_fun := fun k a b => \sum_(i < k) a i * b i.
Lemma mul_exact m k n (A : 'M[R]_(m, k)) (B : 'M[R]_(k, n)) : mul_f D A B = A *m B.
Proof. apply/matrixP => i j. by rewrite !mxE. Qed.
Lemma cost_exact m n (y : 'cV[R]_m) (H : 'M[R]_(m, n)) (x : 'cV[R]_n) : cost_f id D y H x = Rmult (Rdiv 1 2) (sq (y - H *m x)).
Proof. rewrite /cost_f mul_exact. congr (Rmult _ _). rewrite /D /sq. apply: eq_bigr => i _. by rewrite !mxE. Qed.
Lemma exact_ls (ldlt : solver) m n (solve : 'M[R]_n -> 'cV[R]_n -> outcome 'cV[R]_n) (y : 'cV[R]_m) (H : 'M[R]_(m, n)) (W : 'M[R]_m) (x0 : 'cV[R]_n) J : (n <= m)%N ->
  (forall A b, ldlt (DM A) (DV b) = (x <- solve A b ;; Ret (DV x))) ->
  UnweightedLinearLeastSquares ldlt (DV y) (DM H) (DV x0) J = (p <- unweighted_f id D solve y H ;; Ret (true, (DV p.1, p.2))) /\
  WeightedLinearLeastSquares ldlt (DV y) (DM H) (DM W) (DV x0) J = (p <- weighted_f id D solve y H W ;; Ret (true, (DV p.1, p.2))).
Proof.
  move=> Hmn L. split.
  - rewrite /UnweightedLinearLeastSquares !wrong_size_ok /= ltnNge Hmn /=. rewrite /tr. eig.
    rewrite L /unweighted_f /normal_f /rhs_f !mul_exact. case: (solve _ _) => //= x. by rewrite cost_ok /= cost_exact.
  - rewrite /WeightedLinearLeastSquares !wrong_size_ok /= ltnNge Hmn /=. rewrite /tr. eig.
    rewrite L /weighted_f /wnormal_f /wrhs_f !mul_exact. case: (solve _ _) => //= x. by rewrite cost_ok /= cost_exact.
Qed.
End Exact.
