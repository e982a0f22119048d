(** Convergence of the nonlinear least-squares iterations. *)
From Coq Require Import Reals Lra.
From mathcomp Require Import all_ssreflect all_algebra.
From Verif Require Import Base BaseMx ModelEigen ModelKalman ModelBls SpecKalman SpecFilter SpecBls SpecGaussNewton ProofMx ProofKalman ProofKalman2 ProofKalman3 ProofKalman4 ProofKalman5 ProofBls ProofBls2 ProofBls3 ProofBlsFloat2.
Set Implicit Arguments.
Unset Strict Implicit.
Unset Printing Implicit Defensive.
Import GRing.Theory.
Local Open Scope ring_scope.
Local Open Scope outcome_scope.

Section Scalars.
Local Open Scope R_scope.
Lemma sqrt_of_sq a b : 0 <= a -> 0 <= b -> a * a <= b * b -> a <= b.
Proof. move=> A B E. apply: Rnot_lt_le => C. nra. Qed.
Lemma le_div a b c : 0 < c -> a * c <= b -> a <= b / c.
Proof. move=> C E. apply: (Rmult_le_reg_r c) => //. have -> : b / c * c = b by field; lra. exact: E. Qed.
Lemma step_scal s L sg D d q c t e : 0 < s -> 0 <= L -> 0 <= sg -> 0 <= D -> 0 <= d ->
  q = c + t -> c * c <= e * q -> 0 <= e -> 0 <= q -> sqrt e <= L / 2 * (d * d) -> t <= D * (sg * d) -> s * s * (D * D) <= q ->
  D <= sg / (s * s) * d + L / (2 * s) * (d * d).
Proof.
  move=> Hs HL Hg HD Hd Eq Hc He Hq HE Ht HsD.
  have P := sqrt_pos q. have E := sqrt_sqrt q Hq. have Pe := sqrt_pos e. have Ee := sqrt_sqrt e He.
  move: (sqrt q) (sqrt e) P E Pe Ee HE => Q x P E Pe Ee HE.
  have C : c <= x * Q.
  { apply: Rnot_lt_le => C. have N : 0 <= x * Q by apply: Rmult_le_pos. have : (x * Q) * (x * Q) < c * c by nra.
    have -> : x * Q * (x * Q) = (x * x) * (Q * Q) by ring. rewrite Ee E. lra. }
  have SQ : s * D <= Q.
  { apply: sqrt_of_sq => //; first by apply: Rmult_le_pos; lra. rewrite E. lra. }
  have T : t <= Q * (sg * d / s).
  { have N : 0 <= sg * d by apply: Rmult_le_pos.
    have -> : Q * (sg * d / s) = Q / s * (sg * d) by field; lra.
    apply: Rle_trans Ht _. apply: Rmult_le_compat_r => //. apply: le_div => //; lra. }
  have Z : Q <= L / 2 * (d * d) + sg * d / s.
  { case: (Req_dec Q 0) => [->|NQ].
    - apply: Rplus_le_le_0_compat; first lra. apply: Rmult_le_pos; first exact: Rmult_le_pos.
      apply: Rlt_le. exact: Rinv_0_lt_compat.
    - apply: (Rmult_le_reg_l Q); first lra. rewrite E Rmult_plus_distr_l.
      have : x * Q <= Q * (L / 2 * (d * d)) by rewrite Rmult_comm; apply: Rmult_le_compat_l. lra. }
  apply: (Rmult_le_reg_l s) => //.
  have -> : s * (sg / (s * s) * d + L / (2 * s) * (d * d)) = L / 2 * (d * d) + sg * d / s by field; lra.
  lra.
Qed.
Lemma shrink_scal a b d rho : 0 <= b -> 0 <= d -> d <= rho -> a * d + b * (d * d) <= (a + b * rho) * d.
Proof.
  move=> B D E. have := Rmult_le_pos _ _ (Rmult_le_pos _ _ B D) (Rge_le _ _ (Rge_minus _ _ (Rle_ge _ _ E))). lra.
Qed.
Lemma tri_scal a b c d : 0 <= a -> 0 <= b -> c * c <= (a * a) * (b * b) -> d = a * a + 2 * c + b * b -> d <= (a + b) * (a + b).
Proof.
  move=> A B C ->. have : c <= a * b; last lra. apply: Rnot_lt_le => D.
  have N : 0 <= a * b by apply: Rmult_le_pos. have : (a * b) * (a * b) < c * c by nra. lra.
Qed.
End Scalars.

Lemma len_ge0 n (v : 'cV[R]_n) : Rle 0 (len v).
Proof. exact: sqrt_pos. Qed.
Lemma dot_len n (v w : 'cV[R]_n) : Rle ((v^T *m w) 0 0) (Rmult (len v) (len w)).
Proof.
  apply: Rnot_lt_le => C. have := cauchy v w (psd1 n). rewrite mulmx1 !sq_qf -!len_sq.
  move: C (len_ge0 v) (len_ge0 w). move: ((v^T *m w) 0 0) (len v) (len w) => c a b C A B.
  have N : Rle 0 (Rmult a b) by apply: Rmult_le_pos. move: C N. clear. move=> C N. nra.
Qed.
Lemma len_add n (v w : 'cV[R]_n) : Rle (len (v + w)) (Rplus (len v) (len w)).
Proof.
  apply: sqrt_of_sq; [exact: len_ge0|by apply: Rplus_le_le_0_compat; apply: len_ge0|]. rewrite len_sq.
  apply: (@tri_scal _ _ ((v^T *m w) 0 0)); try exact: len_ge0.
  - have := cauchy v w (psd1 n). rewrite mulmx1 !sq_qf -!len_sq. toR. lra.
  - rewrite !len_sq -!sq_qf (qf_add v w (proj1 (psd1 n))) mulmx1. rewrite mulr2n. toR. lra.
Qed.
Lemma len_opp n (v : 'cV[R]_n) : len (- v) = len v.
Proof. rewrite /len /sq. congr sqrt. apply: eq_bigr => i _. by rewrite mxE mulrNN. Qed.
Lemma len_sym n (v w : 'cV[R]_n) : len (v - w) = len (w - v).
Proof. by rewrite -len_opp opprB. Qed.

Section Converge.
Variables (m n : nat) (W : 'M[R]_m) (h : 'cV[R]_n -> 'cV[R]_m) (Hf : 'cV[R]_n -> 'M[R]_(m, n)) (y : 'cV[R]_m) (xs : 'cV[R]_n) (s L sg rho : R).
Hypothesis HW : psd W.
Hypothesis T : tame W h Hf y xs s L sg rho.
Hypothesis s0 : Rlt 0 s.
Hypothesis L0 : Rle 0 L.
Hypothesis g0 : Rle 0 sg.
Let k := shrink s L sg rho.

Lemma step_err (x x' : 'cV[R]_n) : Rle (len (x - xs)) rho -> normal_step h Hf W y x x' ->
  Rle (len (x' - xs)) (Rplus (Rmult (Rdiv sg (Rmult s s)) (len (x - xs))) (Rmult (Rdiv L (Rmult 2 s)) (Rmult (len (x - xs)) (len (x - xs))))).
Proof.
  move=> B N. have [A [E O]] := T B. set D := x' - xs. set e := h xs - (h x + Hf x *m (xs - x)) in E. set r := y - h xs in O.
  have F : (Hf x)^T *m W *m Hf x *m D = (Hf x)^T *m W *m r + (Hf x)^T *m W *m e.
  { move: N. rewrite /normal_step. have -> : x' - x = D + (xs - x) by rewrite /D; mx_abel.
    have -> : y - h x = r + e + Hf x *m (xs - x) by rewrite /r /e; mx_abel.
    rewrite mulmxDr [RHS]mulmxDr !mulmxA => /addIr ->. by rewrite mulmxDr. }
  apply: (@step_scal _ _ _ _ _ (qf W (Hf x *m D)) (((Hf x *m D)^T *m W *m e) 0 0) ((D^T *m ((Hf x)^T *m W *m r)) 0 0) (qf W e)) => //; try exact: len_ge0.
  - have -> : qf W (Hf x *m D) = (D^T *m ((Hf x)^T *m W *m Hf x *m D)) 0 0 by rewrite /qf trmx_mul !mulmxA.
    rewrite F mulmxDr mxE trmx_mul !mulmxA. exact: addrC.
  - exact: cauchy.
  - exact: (proj2 HW).
  - exact: (proj2 HW).
  - by rewrite len_sq.
  - apply: Rle_trans (dot_len _ _) _. apply: Rmult_le_compat_l O. exact: len_ge0.
  - rewrite len_sq. exact: A.
Qed.
Lemma coef_L : Rle 0 (Rdiv L (Rmult 2 s)).
Proof. rewrite /Rdiv. apply: Rmult_le_pos => //. apply: Rlt_le. apply: Rinv_0_lt_compat. lra. Qed.
Lemma coef_g : Rle 0 (Rdiv sg (Rmult s s)).
Proof. rewrite /Rdiv. apply: Rmult_le_pos => //. apply: Rlt_le. apply: Rinv_0_lt_compat. exact: Rmult_lt_0_compat. Qed.
Lemma k_ge0 : Rle 0 rho -> Rle 0 k.
Proof.
  move=> R0. rewrite /k /shrink. apply: Rplus_le_le_0_compat; first exact: coef_g.
  apply: Rmult_le_pos => //. exact: coef_L.
Qed.
Lemma step_shrinks (x x' : 'cV[R]_n) : Rle (len (x - xs)) rho -> normal_step h Hf W y x x' ->
  Rle (len (x' - xs)) (Rmult k (len (x - xs))).
Proof.
  move=> B N. apply: Rle_trans (step_err B N) _. rewrite /k /shrink.
  move: coef_L (len_ge0 (x - xs)) B. move: (len (x - xs)) (Rdiv sg _) (Rdiv L _) => d a b HB D B.
  exact: shrink_scal.
Qed.
Hypothesis k1 : Rlt k 1.
Lemma stationary_step (x : 'cV[R]_n) : stationary W h Hf y x -> normal_step h Hf W y x x.
Proof. rewrite /stationary /normal_step subrr mulmx0 => ->. by []. Qed.
Lemma unique_stationary (x : 'cV[R]_n) : Rle (len (x - xs)) rho -> stationary W h Hf y x -> x = xs.
Proof.
  move=> B /stationary_step/(step_shrinks B) E. apply/eqP. rewrite -subr_eq0. apply/eqP/len0.
  move: (len_ge0 (x - xs)) E k1. move: (len (x - xs)) => d D E K. nra.
Qed.
Lemma near_of_short eps (x x' : 'cV[R]_n) : Rle (len (x - xs)) rho -> normal_step h Hf W y x x' -> Rle (len (x' - x)) eps ->
  Rle (len (x - xs)) (Rdiv eps (Rminus 1 k)).
Proof.
  move=> B N E. have S := step_shrinks B N.
  have A : Rle (len (x - xs)) (Rplus (len (x' - x)) (len (x' - xs))).
  { rewrite (len_sym x'). have -> : x - xs = (x - x') + (x' - xs) by mx_abel. exact: len_add. }
  have : Rle (Rmult (len (x - xs)) (Rminus 1 k)) eps by lra.
  move=> F. apply: le_div F. lra.
Qed.
Lemma final_err eps (x x' : 'cV[R]_n) : Rle (len (x - xs)) rho -> normal_step h Hf W y x x' -> Rle (len (x' - x)) eps ->
  let d := Rdiv eps (Rminus 1 k) in
  Rle (len (x' - xs)) (Rplus (Rmult (Rdiv sg (Rmult s s)) d) (Rmult (Rdiv L (Rmult 2 s)) (Rmult d d))).
Proof.
  move=> B N E d. have F := near_of_short B N E. rewrite -/d in F. apply: Rle_trans (step_err B N) _.
  apply: Rplus_le_compat.
  - apply: Rmult_le_compat_l F. exact: coef_g.
  - apply: Rmult_le_compat_l coef_L _. apply: Rmult_le_compat => //; exact: len_ge0.
Qed.

Variables (ldlt : solver) (p : predictor) (q : relinearizer) (eps : R).
Hypothesis HL : ldlt_ok ldlt.
Hypothesis Hp : predicts p h.
Hypothesis Hq : linearizes q Hf.

Lemma loop_converges j : forall fuel H x1 yx (x r : 'cV[R]_n), (j < fuel)%N -> Rlt eps (len r) ->
  Rle (len (x - xs)) rho -> Rle (Rmult (Rmult (Rplus 1 k) (pow k j)) (len (x - xs))) eps ->
  exists x' x'' yx', [/\ weighted_loop fuel ldlt p q (DV y) (DM W) eps (IT H (DV x) x1 yx (DV r)) =
      Ret (true, IT (DM (Hf x')) (DV x'') (DV x'') yx' (DV (x'' - x'))),
    normal_step h Hf W y x' x'', Rle (len (x' - xs)) rho & Rle (len (x'' - x')) eps].
Proof.
  elim: j => [|j IH] fuel H x1 yx x r; case: fuel => // f Hf' Er B E.
  - have [x' [N S]] := wl_step y eps HL Hp Hq HW x. rewrite S //.
    have K := step_shrinks B N.
    have S' : Rle (len (x' - x)) eps.
    { have -> : x' - x = (x' - xs) + (xs - x) by mx_abel. have := len_add (x' - xs) (xs - x). rewrite (len_sym xs x).
      move: E. rewrite /= Rmult_1_r. lra. }
    exists x, x', (DV (h x)). by rewrite wl_stop.
  - have [x' [N S]] := wl_step y eps HL Hp Hq HW x. rewrite S //. have K := step_shrinks B N.
    have KL : Rle (len (x' - xs)) (len (x - xs)).
    { move: K k1 (len_ge0 (x - xs)). move: (len _) (len _) => a b K1 K2 K3. nra. }
    case: (Rlt_dec eps (len (x' - x))) => [F|/Rnot_lt_le F].
    + apply: IH => //; first lra.
      have K0 : Rle 0 k by apply: k_ge0; apply: Rle_trans B; exact: len_ge0.
      apply: Rle_trans E. rewrite /=.
      have P : Rle 0 (Rmult (Rplus 1 k) (pow k j)) by apply: Rmult_le_pos; [lra|exact: pow_le].
      have := Rmult_le_compat_l _ _ _ P K. lra.
    + exists x, x', (DV (h x)). by rewrite wl_stop.
Qed.
Lemma wnl_converges j fuel (H : 'M[R]_(m, n)) (x x1 : 'cV[R]_n) J : (n <= m)%N -> (j < fuel)%N -> Rlt eps (len (x1 - x)) ->
  Rle (len (x - xs)) rho -> Rle (Rmult (Rmult (Rplus 1 k) (pow k j)) (len (x - xs))) eps ->
  exists H' x' J', WeightedNonlinearLeastSquares fuel ldlt p q (DV y) (DM H) (DV x) (DM W) eps (DV x1) J = Ret (true, (H', DV x', DV x', J')) /\
  let d := Rdiv eps (Rminus 1 k) in
  Rle (len (x' - xs)) (Rplus (Rmult (Rdiv sg (Rmult s s)) d) (Rmult (Rdiv L (Rmult 2 s)) (Rmult d d))).
Proof.
  move=> Hmn Hj Er B E. rewrite wnl_eq //.
  have [x' [x'' [yx' [-> N B' S]]]] := @loop_converges j fuel (DM H) (DV x1) (zerov 0) x (x1 - x) Hj Er B E.
  rewrite /= cost_ok /=. exists (DM (Hf x')), x''. eexists. split; first reflexivity. exact: final_err B' N S.
Qed.
End Converge.

Lemma unl_converges m n (h : 'cV[R]_n -> 'cV[R]_m) (Hf : 'cV[R]_n -> 'M[R]_(m, n)) (y : 'cV[R]_m) (xs : 'cV[R]_n) (s L sg rho : R) ldlt p q eps j fuel (H : 'M[R]_(m, n)) (x x1 : 'cV[R]_n) J :
  tame 1%:M h Hf y xs s L sg rho -> Rlt 0 s -> Rle 0 L -> Rle 0 sg -> let k := shrink s L sg rho in Rlt k 1 ->
  ldlt_ok ldlt -> predicts p h -> linearizes q Hf -> (n <= m)%N -> (j < fuel)%N -> Rlt eps (len (x1 - x)) ->
  Rle (len (x - xs)) rho -> Rle (Rmult (Rmult (Rplus 1 k) (pow k j)) (len (x - xs))) eps ->
  exists H' x' J', UnweightedNonlinearLeastSquares fuel ldlt p q (DV y) (DM H) (DV x) eps (DV x1) J = Ret (true, (H', DV x', DV x', J')) /\
  let d := Rdiv eps (Rminus 1 k) in
  Rle (len (x' - xs)) (Rplus (Rmult (Rdiv sg (Rmult s s)) d) (Rmult (Rdiv L (Rmult 2 s)) (Rmult d d))).
Proof.
  move=> T s0 L0 g0 k k1 HL Hp Hq Hmn Hj Er B E. rewrite (unl_wnl y eps H x x1 J HL Hp Hq Hmn).
  exact: (wnl_converges (psd1 m) T s0 L0 g0 k1 HL Hp Hq H J Hmn Hj Er B E).
Qed.
Lemma gn_normal m n (W : 'M[R]_m) h (Hf : 'cV[R]_n -> 'M[R]_(m, n)) (y : 'cV[R]_m) (x x' : 'cV[R]_n) : psd W ->
  gauss_newton W h Hf y x x' -> normal_step h Hf W y x x'.
Proof.
  move=> HW G. have [v Ev] := normal_solvable (Hf x) (y - h x) HW. apply: (normal_of_best HW Ev) => u.
  have := G (x + u). have -> : x + u - x = u by mx_abel. by rewrite !opprD !addrA.
Qed.

Ltac eqR := match goal with |- ?a = ?b => change (@eq R a b) end.
Ltac atoms := repeat match goal with |- context [@fun_of_matrix ?T 1 1 ?v ?i ?j] => progress change (@fun_of_matrix T 1 1 v i j) with (@fun_of_matrix R 1 1 v (0 : 'I_1) (0 : 'I_1)) end.
(** ** A case: position from itself and its square, with a residual *)
Definition pairv (a b : R) : 'cV[R]_2 := \matrix_(i, _) if i == 0 then a else b.
Definition sqh (x : 'cV[R]_1) : 'cV[R]_2 := pairv (Rmult (x 0 0) (x 0 0)) (x 0 0).
Definition sqH (x : 'cV[R]_1) : 'M[R]_(2, 1) := pairv (Rmult 2 (x 0 0)) 1.
Definition one1 (a : R) : 'cV[R]_1 := const_mx a.
Definition sq_pred : predictor := fun xk _ => match as_cv 1 xk with Ret v => Ret (true, DV (sqh v)) | _ => Undef end.
Definition sq_relin : relinearizer := fun xk _ => match as_cv 1 xk with Ret v => Ret (true, DM (sqH v)) | _ => Undef end.
Lemma sq_predicts : predicts sq_pred sqh.
Proof. by move=> x yx; rewrite /sq_pred as_cv_ok. Qed.
Lemma sq_linearizes : linearizes sq_relin sqH.
Proof. by move=> x H; rewrite /sq_relin as_cv_ok. Qed.
Lemma sq_pair a b : sq (pairv a b) = Rplus (Rmult a a) (Rmult b b).
Proof. rewrite /sq !big_ord_recl big_ord0 !mxE /=. toR. ring. Qed.
Lemma sq_one (v : 'cV[R]_1) : sq v = Rmult (v 0 0) (v 0 0).
Proof. by rewrite /sq big_ord1. Qed.
Lemma len_one (v : 'cV[R]_1) : len v = Rabs (v 0 0).
Proof. by rewrite /len sq_one sqrt_Rsqr_abs. Qed.
Lemma sq_tame : tame 1%:M sqh sqH (pairv (11 / 10) (4 / 5)) (one1 1) (7 / 5) 2 (1 / 5) (1 / 2).
Proof.
  move=> x. rewrite len_one !mxE => B. have B' : Rle (Rabs (Rminus (x 0 0) 1)) (1 / 2) by exact: B.
  have [B1 B2] : Rle (1 / 2) (x 0 0) /\ Rle (x 0 0) (3 / 2) by move: B'; rewrite /Rabs; case: Rcase_abs; lra.
  split; last split.
  - move=> v. rewrite sq_qf. have -> : sqH x *m v = pairv (Rmult (Rmult 2 (x 0 0)) (v 0 0)) (v 0 0).
    { apply/matrixP => i j. rewrite !ord1 !mxE big_ord1 !mxE. case: (i == 0); toR; eqR; atoms; ring. }
    rewrite sq_pair sq_one. move: (x 0 0) (v 0 0) B1 => a b A.
    have := pow2_ge_0 b. have : Rle 1 (Rmult (Rmult 2 a) (Rmult 2 a)) by clear -A; nra.
    clear. move=> C D. nra.
  - rewrite sq_qf. have -> : sqh (one1 1) - (sqh x + sqH x *m (one1 1 - x)) = pairv (Rmult (Rminus (x 0 0) 1) (Rminus (x 0 0) 1)) 0.
    { apply/matrixP => i j. rewrite !ord1 !mxE big_ord1 !mxE. case: (i == 0); toR; eqR; atoms; ring. }
    rewrite sq_pair sq_one !mxE.
    have -> : Rplus (Rmult (Rmult (Rminus (x 0 0) 1) (Rminus (x 0 0) 1)) (Rmult (Rminus (x 0 0) 1) (Rminus (x 0 0) 1))) (Rmult 0 0) = Rsqr (Rsqr (Rminus (x 0 0) 1)).
    { rewrite /Rsqr. ring. }
    rewrite sqrt_Rsqr; last exact: Rle_0_sqr. rewrite /Rsqr. toR. atoms. lra.
  - rewrite !len_one !mxE mulmx1. toR. rewrite !big_ord_recl big_ord0 !mxE /=. toR.
    have -> : Rplus (Rmult (Rmult 2 (x 0 0)) (Rminus (11 / 10) (Rmult 1 1))) (Rplus (Rmult 1 (Rminus (4 / 5) 1)) 0) = Rmult (1 / 5) (Rminus (x 0 0) 1) by field.
    rewrite Rabs_mult (Rabs_pos_eq (1 / 5)); [exact: Rle_refl|lra].
Qed.
Lemma sq_case : exists H' x' J', WeightedNonlinearLeastSquares 10 pinv_solver sq_pred sq_relin (DV (pairv (11 / 10) (4 / 5))) (DM (sqH 0)) (DV (one1 (3 / 2))) (DM (1%:M : 'M[R]_2)) (1 / 1000) (DV (one1 0)) 0 =
  Ret (true, (H', DV (x' : 'cV[R]_1), DV x', J')) /\ Rle (Rabs (Rminus (x' 0 0) 1)) (1 / 5000).
Proof.
  have K : shrink (7 / 5) 2 (1 / 5) (1 / 2) = Rdiv 45 98 by rewrite /shrink; field.
  have Kl : Rlt (shrink (7 / 5) 2 (1 / 5) (1 / 2)) 1 by rewrite K; lra.
  have s0 : Rlt 0 (7 / 5) by lra. have L0 : Rle 0 2 by lra. have g0 : Rle 0 (1 / 5) by lra.
  have Er : Rlt (1 / 1000) (len (one1 0 - one1 (3 / 2))).
  { rewrite len_one !mxE. toR. rewrite Rabs_left; lra. }
  have Lx : len (one1 (3 / 2) - one1 1) = Rdiv 1 2.
  { rewrite len_one !mxE. toR. rewrite Rabs_pos_eq; lra. }
  have B : Rle (len (one1 (3 / 2) - one1 1)) (1 / 2) by rewrite Lx; lra.
  have E : Rle (Rmult (Rmult (Rplus 1 (shrink (7 / 5) 2 (1 / 5) (1 / 2))) (pow (shrink (7 / 5) 2 (1 / 5) (1 / 2)) 9)) (len (one1 (3 / 2) - one1 1))) (1 / 1000).
  { rewrite Lx K /=. lra. }
  have [H' [x' [J' [-> S]]]] := wnl_converges (psd1 2) sq_tame s0 L0 g0 Kl pinv_solver_ok sq_predicts sq_linearizes (sqH 0) (0 : R) (isT : (1 <= 2)%N) (isT : (9 < 10)%N) Er B E.
  exists H', x', J'. split=> //. move: S. rewrite len_one K /= !mxE. toR. move=> S. apply: Rle_trans S _. lra.
Qed.
Lemma sq_stationary : stationary 1%:M sqh sqH (pairv (11 / 10) (4 / 5)) (one1 1).
Proof.
  rewrite /stationary mulmx1. apply/matrixP => i j. rewrite !ord1 !mxE !big_ord_recl big_ord0 !mxE /=. toR. field.
Qed.
