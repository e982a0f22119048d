(** Proofs about least squares, part 3: consequences. *)
From Coq Require Import Reals Lra.
From mathcomp Require Import all_ssreflect all_algebra.
From Verif Require Import Base BaseMx ModelEigen ModelKalman ModelBls SpecKalman SpecFilter SpecBls ProofMx ProofKalman ProofKalman2 ProofKalman3 ProofKalman4 ProofBls ProofBls2.
Set Implicit Arguments.
Unset Strict Implicit.
Unset Printing Implicit Defensive.
Import GRing.Theory.
Local Open Scope ring_scope.
Local Open Scope outcome_scope.

Lemma sq_eq0 n (v : 'cV[R]_n) : sq v = 0 -> v = 0.
Proof. rewrite -sq_qf. exact: qf_1_eq0. Qed.

Lemma unweighted_best ldlt m n (y : 'cV[R]_m) (H : 'M[R]_(m, n)) (x0 : 'cV[R]_n) J :
  ldlt_ok ldlt -> (n <= m)%N ->
  exists x : 'cV[R]_n,
    UnweightedLinearLeastSquares ldlt (DV y) (DM H) (DV x0) J = Ret (true, (DV x, Rmult (Rdiv 1 2) (sq (y - H *m x)))) /\
    (forall v, Rle (sq (y - H *m x)) (sq (y - H *m v))) /\
    (full_rank H -> forall v, Rle (sq (y - H *m v)) (sq (y - H *m x)) -> v = x).
Proof.
  move=> L Hmn. have [x [E N]] := unweighted_ok y H x0 J L Hmn. exists x. split=> //.
  have B := normal_best (psd1 m) N. split=> [v|F v Hv].
  - by have := B v; rewrite !sq_qf.
  - apply: (best_unique (pd1 m) F N) => w. have := B w. rewrite !sq_qf. exact: Rle_trans.
Qed.
Lemma weighted_best ldlt m n (y : 'cV[R]_m) (H : 'M[R]_(m, n)) (W : 'M[R]_m) (x0 : 'cV[R]_n) J :
  ldlt_ok ldlt -> pd W -> (n <= m)%N ->
  exists x : 'cV[R]_n,
    WeightedLinearLeastSquares ldlt (DV y) (DM H) (DM W) (DV x0) J = Ret (true, (DV x, Rmult (Rdiv 1 2) (sq (y - H *m x)))) /\
    (forall v, Rle (qf W (y - H *m x)) (qf W (y - H *m v))) /\
    (full_rank H -> forall v, Rle (qf W (y - H *m v)) (qf W (y - H *m x)) -> v = x).
Proof.
  move=> L HW Hmn. have [x [E N]] := weighted_ok y H x0 J L (pd_psd HW) Hmn. exists x. split=> //.
  have B := normal_best (pd_psd HW) N. split=> [v|F v Hv].
  - exact: B.
  - apply: (best_unique HW F N) => w. have := B w. exact: Rle_trans.
Qed.

(** Whatever solves the normal equations is the state returned. *)
Lemma weighted_is ldlt m n (y : 'cV[R]_m) (H : 'M[R]_(m, n)) (W : 'M[R]_m) (x x0 : 'cV[R]_n) J :
  ldlt_ok ldlt -> pd W -> full_rank H -> (n <= m)%N -> H^T *m W *m H *m x = H^T *m W *m y ->
  WeightedLinearLeastSquares ldlt (DV y) (DM H) (DM W) (DV x0) J = Ret (true, (DV x, Rmult (Rdiv 1 2) (sq (y - H *m x)))).
Proof.
  move=> L HW F Hmn E. have [x' [R' N]] := weighted_ok y H x0 J L (pd_psd HW) Hmn.
  have <- : x' = x by apply: (best_unique HW F E) (normal_best (pd_psd HW) N). exact: R'.
Qed.
Lemma unweighted_is ldlt m n (y : 'cV[R]_m) (H : 'M[R]_(m, n)) (x x0 : 'cV[R]_n) J :
  ldlt_ok ldlt -> full_rank H -> (n <= m)%N -> H^T *m 1%:M *m H *m x = H^T *m 1%:M *m y ->
  UnweightedLinearLeastSquares ldlt (DV y) (DM H) (DV x0) J = Ret (true, (DV x, Rmult (Rdiv 1 2) (sq (y - H *m x)))).
Proof.
  move=> L F Hmn E. have [x' [R' N]] := unweighted_ok y H x0 J L Hmn.
  have <- : x' = x by apply: (best_unique (pd1 m) F E) (normal_best (psd1 m) N). exact: R'.
Qed.

Lemma pd_scale n (W : 'M[R]_n) c : Rlt 0 c -> pd W -> pd (c *: W).
Proof.
  move=> Hc [S D]. split; first by rewrite /symmetric linearZ /= S.
  move=> v Nv. have -> : qf (c *: W) v = c * qf W v by rewrite /qf -scalemxAr -scalemxAl mxE.
  exact: Rmult_lt_0_compat (D _ Nv).
Qed.
Lemma weighted_scale ldlt m n (y : 'cV[R]_m) (H : 'M[R]_(m, n)) (W : 'M[R]_m) (x0 : 'cV[R]_n) J c :
  ldlt_ok ldlt -> pd W -> full_rank H -> (n <= m)%N -> Rlt 0 c ->
  WeightedLinearLeastSquares ldlt (DV y) (DM H) (DM (c *: W)) (DV x0) J =
  WeightedLinearLeastSquares ldlt (DV y) (DM H) (DM W) (DV x0) J.
Proof.
  move=> L HW F Hmn Hc. have [x [-> N]] := weighted_ok y H x0 J L (pd_psd HW) Hmn.
  apply: weighted_is => //; first exact: pd_scale. by rewrite -!scalemxAr -!scalemxAl N.
Qed.
Lemma weighted_id ldlt m n (y : 'cV[R]_m) (H : 'M[R]_(m, n)) (x0 : 'cV[R]_n) J :
  ldlt_ok ldlt ->
  WeightedLinearLeastSquares ldlt (DV y) (DM H) (DM (1%:M : 'M[R]_m)) (DV x0) J =
  UnweightedLinearLeastSquares ldlt (DV y) (DM H) (DV x0) J.
Proof.
  move=> L. rewrite /WeightedLinearLeastSquares /UnweightedLinearLeastSquares !wrong_size_ok /=. case: ifP => // _.
  rewrite /tr. eig. by rewrite mulmx1.
Qed.
Lemma weighted_scalar ldlt m n (y : 'cV[R]_m) (H : 'M[R]_(m, n)) (x0 : 'cV[R]_n) J (c : R) :
  ldlt_ok ldlt -> full_rank H -> (n <= m)%N -> Rlt 0 c ->
  WeightedLinearLeastSquares ldlt (DV y) (DM H) (DM (c%:M : 'M[R]_m)) (DV x0) J =
  UnweightedLinearLeastSquares ldlt (DV y) (DM H) (DV x0) J.
Proof. move=> L F Hmn Hc. rewrite -scalemx1 weighted_scale //; [exact: weighted_id|exact: pd1]. Qed.

(** Exact data. *)
Lemma weighted_exact ldlt m n (H : 'M[R]_(m, n)) (W : 'M[R]_m) (x x0 : 'cV[R]_n) J :
  ldlt_ok ldlt -> pd W -> full_rank H -> (n <= m)%N ->
  WeightedLinearLeastSquares ldlt (DV (H *m x)) (DM H) (DM W) (DV x0) J = Ret (true, (DV x, R0)).
Proof.
  move=> L HW F Hmn. rewrite (weighted_is (x := x) _ _ L HW F Hmn); last by rewrite !mulmxA.
  congr (Ret (_, (_, _))). rewrite subrr /sq big1 => [|i _]; last by rewrite mxE mulr0. toR. ring.
Qed.
Lemma unweighted_exact ldlt m n (H : 'M[R]_(m, n)) (x x0 : 'cV[R]_n) J :
  ldlt_ok ldlt -> full_rank H -> (n <= m)%N ->
  UnweightedLinearLeastSquares ldlt (DV (H *m x)) (DM H) (DV x0) J = Ret (true, (DV x, R0)).
Proof. move=> L F Hmn. rewrite -weighted_id //. exact: weighted_exact (pd1 m) F Hmn. Qed.

(** ** The filter update is weighted least squares *)
Lemma pd_block m n (A : 'M[R]_m) (B : 'M[R]_n) : pd A -> pd B -> pd (block_mx A 0 0 B).
Proof.
  move=> [SA DA] [SB DB]. split; first by rewrite /symmetric tr_block_mx !trmx0 SA SB.
  move=> v. rewrite -[v]vsubmxK. set a := usubmx v. set b := dsubmx v => Nv.
  have -> : qf (block_mx A 0 0 B) (col_mx a b) = qf A a + qf B b.
  { by rewrite /qf tr_col_mx mul_row_block !mulmx0 addr0 add0r mul_row_col mxE. }
  have PA := proj2 (pd_psd (conj SA DA)) a. have PB := proj2 (pd_psd (conj SB DB)) b.
  case: (eqVneq a 0) => [Ea|/DA Na].
  - have Nb : b != 0 by apply: contra Nv => /eqP ->; rewrite Ea col_mx0.
    have := DB _ Nb. move: PA. rlra.
  - move: Na PB. rlra.
Qed.
Lemma update_is_wls ldlt n m (x x1 x' x0 : 'cV[R]_n) (z : 'cV[R]_m) (P P1 P' : 'M[R]_n) (H : 'M[R]_(m, n)) (Rk : 'M[R]_m) J :
  ldlt_ok ldlt -> pd P -> pd Rk ->
  filterUpdate (DV x) (DM P) (DV z) (DM H) (DM Rk) (DV x1) (DM P1) = Ret (true, (DV x', DM P')) ->
  exists J', WeightedLinearLeastSquares ldlt (DV (col_mx x z)) (DM (col_mx 1%:M H)) (DM (block_mx (invmx P) 0 0 (invmx Rk))) (DV x0) J =
    Ret (true, (DV x', J')).
Proof.
  move=> L HP HR E. have [UP' EP Ex] := update_info (pd_unit HP) (pd_unit HR) E.
  eexists. apply: weighted_is => //.
  - exact: pd_block (pd_inv HP) (pd_inv HR).
  - move=> v. rewrite mul_col_mx mul1mx => Z. have := f_equal usubmx Z. by rewrite col_mxKu linear0.
  - exact: leq_addr.
  - rewrite tr_col_mx trmx1 mul_row_block !mul1mx !mulmx0 add0r addr0 !mul_row_col mulmx1 -EP Ex. by [].
Qed.

(** ** Best linear unbiased estimator *)
Lemma mean_lin (I : finType) n m (p : I -> R) (V : I -> 'cV[R]_m) (G : 'M[R]_(n, m)) c : weights p ->
  mean p (fun i => c + G *m V i) = c + G *m mean p V.
Proof. move=> Wp. by rewrite meanD mean_const // mean_mul. Qed.
Lemma cov_lin (I : finType) n m (p : I -> R) (V : I -> 'cV[R]_m) (G : 'M[R]_(n, m)) c : weights p ->
  cov p (fun i => c + G *m V i) = G *m cov p V *m G^T.
Proof.
  move=> Wp. have M := mean_lin V G c Wp.
  have -> : G *m cov p V *m G^T = \sum_i p i *: (G *m (V i - mean p V) *m (G *m (V i - mean p V))^T).
  { rewrite /cov [G *m _]mulmx_sumr mulmx_suml. apply: eq_bigr => i _. by rewrite trmx_mul -scalemxAr -scalemxAl !mulmxA. }
  apply: eq_bigr => i _. rewrite M.
  have -> : c + G *m V i - (c + G *m mean p V) = G *m (V i - mean p V) by rewrite mulmxBr; mx_abel.
  by [].
Qed.
Lemma cov_ext (I : finType) n (p : I -> R) (X Y : I -> 'cV[R]_n) : (forall i, X i = Y i) -> cov p X = cov p Y.
Proof.
  move=> E. have M : mean p X = mean p Y by apply: eq_bigr => i _; rewrite E.
  rewrite /cov M. by apply: eq_bigr => i _; rewrite E.
Qed.
Section Blue.
Variables (m n : nat) (H : 'M[R]_(m, n)) (Rk : 'M[R]_m).
Hypotheses (HR : pd Rk) (F : full_rank H).
Let W := invmx Rk.
Let A := H^T *m W *m H.
Let G := invmx A *m H^T *m W.
Lemma blue_unit : A \in unitmx. Proof. exact: pd_unit (normal_pd (pd_inv HR) F). Qed.
Lemma blue_GH : G *m H = 1%:M.
Proof. rewrite /G -!mulmxA [H^T *m _]mulmxA. exact: mulVmx blue_unit. Qed.
Lemma blue_A_sym : A^T = A. Proof. exact: proj1 (normal_pd (pd_inv HR) F). Qed.
Lemma blue_RGT : Rk *m G^T = H *m invmx A.
Proof.
  have SW : W^T = W by exact: proj1 (pd_inv HR).
  have GT : G^T = W *m (H *m invmx A).
  { rewrite /G trmx_mul SW trmx_mul trmxK trmx_inv blue_A_sym. by []. }
  have WV : Rk *m W = 1%:M by apply: mulmxV; exact: pd_unit.
  by rewrite GT mulmxA WV mul1mx.
Qed.
Lemma blue_cov : G *m Rk *m G^T = invmx A.
Proof. by rewrite -mulmxA blue_RGT mulmxA blue_GH mul1mx. Qed.
Lemma blue_best (L : 'M[R]_(n, m)) : L *m H = 1%:M -> loewner (G *m Rk *m G^T) (L *m Rk *m L^T).
Proof.
  move=> E x. have D := psd_congr (L - G) (pd_psd HR).
  have -> : L *m Rk *m L^T = G *m Rk *m G^T + (L - G) *m Rk *m (L - G)^T.
  { have trB : (L - G)^T = L^T - G^T by exact: linearB.
    have C1 : L *m Rk *m G^T = invmx A by rewrite -mulmxA blue_RGT mulmxA E mul1mx.
    have C2 : G *m Rk *m L^T = invmx A.
    { have AT : (invmx A)^T = invmx A by rewrite trmx_inv blue_A_sym.
      rewrite -AT -C1 [RHS]trmx_mul trmxK [(L *m Rk)^T]trmx_mul (proj1 HR : Rk^T = Rk). by rewrite mulmxA. }
    rewrite trB !mulmxBl !mulmxBr C1 C2 blue_cov. mx_abel. }
  rewrite qfD. have := proj2 D x. move: (qf _ x) (qf (G *m Rk *m G^T) x) => a b. rlra.
Qed.
Lemma blue_normal (y : 'cV[R]_m) : A *m (G *m y) = H^T *m W *m y.
Proof. rewrite /G !mulmxA mulmxV ?mul1mx //. exact: blue_unit. Qed.
Lemma blue_exact (x0 : 'cV[R]_n) v : G *m (H *m x0 + v) = x0 + G *m v.
Proof. by rewrite mulmxDr mulmxA blue_GH mul1mx. Qed.
End Blue.
Lemma weighted_blue ldlt (I : finType) (p : I -> R) m n (V : I -> 'cV[R]_m) (H : 'M[R]_(m, n)) (x0 xs : 'cV[R]_n) J :
  ldlt_ok ldlt -> weights p -> mean p V = 0 -> pd (cov p V) -> full_rank H -> (n <= m)%N ->
  exists (xh : I -> 'cV[R]_n) (Jh : I -> R),
   [/\ forall i, WeightedLinearLeastSquares ldlt (DV (H *m x0 + V i)) (DM H) (DM (invmx (cov p V))) (DV xs) J = Ret (true, (DV (xh i), Jh i)),
       mean p xh = x0, (H^T *m invmx (cov p V) *m H) *m cov p xh = 1%:M
     & forall L : 'M[R]_(n, m), L *m H = 1%:M -> loewner (cov p xh) (cov p (fun i => L *m (H *m x0 + V i)))].
Proof.
  move=> Ld Wp M0 HR F Hmn. set Rk := cov p V. pose G := invmx (H^T *m invmx Rk *m H) *m H^T *m invmx Rk.
  have XE i : G *m (H *m x0 + V i) = x0 + G *m V i by exact: blue_exact.
  have CE : cov p (fun i => G *m (H *m x0 + V i)) = G *m Rk *m G^T by rewrite (cov_ext p XE) cov_lin.
  exists (fun i => G *m (H *m x0 + V i)).
  exists (fun i => Rmult (Rdiv 1 2) (sq (H *m x0 + V i - H *m (G *m (H *m x0 + V i))))).
  split.
  - move=> i. apply: weighted_is => //; first exact: pd_inv. exact: blue_normal.
  - have -> : mean p (fun i => G *m (H *m x0 + V i)) = mean p (fun i => x0 + G *m V i) by apply: eq_bigr => i _; rewrite XE.
    by rewrite mean_lin // M0 mulmx0 addr0.
  - rewrite CE blue_cov // mulmxV //. exact: blue_unit.
  - move=> L EL. rewrite CE. have -> : cov p (fun i => L *m (H *m x0 + V i)) = L *m Rk *m L^T.
    { rewrite (cov_ext p (Y := fun i => x0 + L *m V i)) ?cov_lin // => i. by rewrite mulmxDr mulmxA EL mul1mx. }
    exact: blue_best.
Qed.

(** ** Statements about the nonlinear functions *)
Lemma wnl_steps fuel ldlt p q m n h Hf (W : 'M[R]_m) (y : 'cV[R]_m) eps (H : 'M[R]_(m, n)) (x x1 : 'cV[R]_n) J b r :
  ldlt_ok ldlt -> predicts p h -> linearizes q Hf -> psd W -> (n <= m)%N ->
  WeightedNonlinearLeastSquares fuel ldlt p q (DV y) (DM H) (DV x) (DM W) eps (DV x1) J = Ret (b, r) ->
  b = true /\
  ((Rle (len (x1 - x)) eps /\ r = (DM H, DV x, DV x1, Rmult (Rdiv 1 2) (sq (y - H *m x1)))) \/
   (Rlt eps (len (x1 - x)) /\ exists k xs, [/\ xs 0%N = x,
      forall i, (i <= k)%N -> gauss_newton W h Hf y (xs i) (xs i.+1),
      forall i, (i < k)%N -> Rlt eps (len (xs i.+1 - xs i)),
      Rle (len (xs k.+1 - xs k)) eps &
      r = (DM (Hf (xs k)), DV (xs k.+1), DV (xs k.+1), Rmult (Rdiv 1 2) (sq (y - Hf (xs k) *m xs k.+1)))])).
Proof.
  move=> L Hp Hq HW Hmn E. have [-> D] := wnl_run L Hp Hq HW Hmn E. split=> //.
  case: D => [|[E2 [k [xs [_ H0 Hs [La Lb] ->]]]]]; first by left. right. split=> //.
  exists k, xs. split=> // i Hi. exact: (step_gn HW (Hs _ Hi)).
Qed.
Lemma unl_steps fuel ldlt p q m n h Hf (y : 'cV[R]_m) eps (H : 'M[R]_(m, n)) (x x1 : 'cV[R]_n) J b r :
  ldlt_ok ldlt -> predicts p h -> linearizes q Hf -> (n <= m)%N ->
  UnweightedNonlinearLeastSquares fuel ldlt p q (DV y) (DM H) (DV x) eps (DV x1) J = Ret (b, r) ->
  b = true /\
  ((Rle (len (x1 - x)) eps /\ r = (DM H, DV x, DV x1, Rmult (Rdiv 1 2) (sq (y - H *m x1)))) \/
   (Rlt eps (len (x1 - x)) /\ exists k xs, [/\ xs 0%N = x,
      forall i, (i <= k)%N -> gauss_newton 1%:M h Hf y (xs i) (xs i.+1),
      forall i, (i < k)%N -> Rlt eps (len (xs i.+1 - xs i)),
      Rle (len (xs k.+1 - xs k)) eps &
      r = (DM (Hf (xs k)), DV (xs k.+1), DV (xs k.+1), Rmult (Rdiv 1 2) (sq (y - Hf (xs k) *m xs k.+1)))])).
Proof.
  move=> L Hp Hq Hmn. rewrite (unl_wnl y eps H x x1 J L Hp Hq Hmn). exact: wnl_steps (psd1 m) Hmn.
Qed.
Lemma len0 n (v : 'cV[R]_n) : Rle (len v) 0 -> v = 0.
Proof.
  move=> E. apply: sq_eq0. have P := qf_1_ge0 v. rewrite sq_qf in P. apply: sqrt_eq_0 => //.
  apply: Rle_antisym => //. exact: sqrt_pos.
Qed.
Lemma wnl_stationary fuel ldlt p q m n h Hf (W : 'M[R]_m) (y : 'cV[R]_m) (H : 'M[R]_(m, n)) (x x1 : 'cV[R]_n) J b H' x' x1' J' :
  ldlt_ok ldlt -> predicts p h -> linearizes q Hf -> psd W -> (n <= m)%N -> x1 <> x ->
  WeightedNonlinearLeastSquares fuel ldlt p q (DV y) (DM H) (DV x) (DM W) 0 (DV x1) J = Ret (b, (H', DV x', x1', J')) ->
  x1' = DV (x' : 'cV[R]_n) /\ (Hf x')^T *m W *m (y - h x') = 0.
Proof.
  move=> L Hp Hq HW Hmn N E. have [_ D] := wnl_run L Hp Hq HW Hmn E.
  case: D => [[E2 _]|[_ [k [xs [_ H0 Hs [La Lb] Er]]]]].
  { case: N. by apply/eqP; rewrite -subr_eq0; apply/eqP/len0. }
  have Ek := len0 La. have S := Hs _ (leqnn k).
  have Ex : DV x' = DV (xs k.+1) := f_equal (fun r => r.1.1.2) Er.
  have Ex1 : x1' = DV (xs k.+1) := f_equal (fun r => r.1.2) Er.
  split; first by rewrite Ex.
  have Ex2 : x' = xs k.
  { move: Ex. rewrite -[xs k.+1](subrK (xs k)) Ek add0r. exact: DV_inj. }
  rewrite Ex2 -S Ek mulmx0. by [].
Qed.
Lemma wnl_loop_cost_wrong : exists (p : predictor) (q : relinearizer) (h : 'cV[R]_1 -> 'cV[R]_1) (Hf : 'cV[R]_1 -> 'M[R]_1) (y x x1 : 'cV[R]_1),
  predicts p h /\ linearizes q Hf /\ forall ldlt, ldlt_ok ldlt -> exists (s : 'cV[R]_1) J,
  WeightedNonlinearLeastSquares 2 ldlt p q (DV y) (DM (1%:M : 'M[R]_1)) (DV x) (DM (1%:M : 'M[R]_1)) 0 (DV x1) 0 =
    Ret (true, (DM (Hf s), DV s, DV s, J)) /\ J <> Rmult (Rdiv 1 2) (sq (y - h s)).
Proof.
  pose h (x : 'cV[R]_1) := (1%:M : 'M[R]_1) *m x + const_mx 1.
  pose p : predictor := fun xk _ => match as_cv 1 xk with Ret v => Ret (true, DV (h v)) | _ => Undef end.
  pose q : relinearizer := fun _ _ => Ret (true, DM (1%:M : 'M[R]_1)).
  have Hp : predicts p h by move=> v w; rewrite /p as_cv_ok.
  have Hq : linearizes q (fun _ : 'cV[R]_1 => 1%:M) by [].
  exists p, q, h, (fun _ => 1%:M), 0, 0, (const_mx 1). split=> //. split=> // ldlt L.
  have F : full_rank (1%:M : 'M[R]_1) by move=> v; rewrite mul1mx.
  have LN : Rlt 0 (len (const_mx 1 - 0 : 'cV[R]_1)).
  { apply: sqrt_lt_R0. rewrite subr0 /sq big_ord1 mxE. toR. lra. }
  have [s [E N]] := wnl_affine (0 : 'cV[R]_1) (1%:M : 'M[R]_1) (0 : R) L Hp Hq (pd1 1) F (leqnn 1) (Rle_refl 0) LN (leqnn 2).
  exists s. eexists. split; first exact: E.
  have Es : s = - const_mx 1 by move: N; rewrite trmx1 !mulmx1 !mul1mx sub0r.
  rewrite /h Es !mul1mx addNr !sub0r opprK oppr0 /sq !big_ord1 !mxE. toR. lra.
Qed.
