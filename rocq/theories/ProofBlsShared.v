(** Least squares on shared arguments. *)
From Coq Require Import Reals Lra FunctionalExtensionality.
From mathcomp Require Import all_ssreflect all_algebra.
From Verif Require Import Base BaseMx ModelEigen ModelKalman ModelBls ModelBlsShared SpecKalman SpecFilter SpecBls
  ProofMx ProofKalman ProofKalman2 ProofKalman3 ProofBls ProofBls2 ProofBls3.
Set Implicit Arguments.
Unset Strict Implicit.
Unset Printing Implicit Defensive.
Import GRing.Theory.
Local Open Scope ring_scope.
Local Open Scope outcome_scope.

Lemma getv_same s a v : vecs (setv s a v) a = v.
Proof. by rewrite /= eqxx. Qed.
Lemma getv_other s a b v : b != a -> vecs (setv s a v) b = vecs s b.
Proof. by move=> /= /negbTE ->. Qed.
Lemma getm_same s a A : mats (setm s a A) a = A.
Proof. by rewrite /= eqxx. Qed.

Lemma linear_apart ldlt yk Hk xk J s : yk != xk ->
  UnweightedLinear_at ldlt yk Hk xk J s =
  (r <- UnweightedLinearLeastSquares ldlt (vecs s yk) (mats s Hk) (vecs s xk) J ;; Ret (r.1, (setv s xk r.2.1, r.2.2))).
Proof.
  move=> D. rewrite /UnweightedLinear_at /UnweightedLinearLeastSquares.
  case: ifP => _ /=; first by rewrite setv_same. case: ifP => _ /=; first by rewrite setv_same.
  case: (mul _ _) => //= a. case: (mulv _ _) => //= b. case: (ldlt a b) => //= x. rewrite (negbTE D) eqxx.
  case: (ComputeCostFunction _ _ _ _) => //= -[[] c] //=.
Qed.
Lemma linear_shared ldlt n (y : 'cV[R]_n) (H : 'M[R]_n) a b J s : ldlt_ok ldlt -> vecs s a = DV y -> mats s b = DM H ->
  exists x : 'cV[R]_n, UnweightedLinear_at ldlt a b a J s = Ret (true, (setv s a (DV x), Rmult (Rdiv 1 2) (sq (x - H *m x)))) /\
    (forall v, Rle (sq (y - H *m x)) (sq (y - H *m v))).
Proof.
  move=> L Ey EH. have [v Ev] := normal_solvable H y (psd1 n). have [x [Ex Nx]] := L _ _ _ _ (psd_congrT H (psd1 n)) Ev.
  exists x. split; last by move=> w; have := normal_best (psd1 n) Nx w; rewrite !sq_qf.
  rewrite /UnweightedLinear_at Ey EH wrong_size_ok /= ltnn /=. rewrite /tr. eig.
  move: Ex. rewrite mulmx1 => ->. by rewrite /= eqxx EH cost_ok.
Qed.

(** The store after the loop. *)
Definition leave (Hk xk xkp1 : nat) (s : store) (i : iter) : store := setm (setv (setv s xkp1 (it_x1 i)) xk (it_x i)) Hk (it_H i).
Lemma leave_id Hk xk xkp1 s yx res : leave Hk xk xkp1 s (IT (mats s Hk) (vecs s xk) (vecs s xkp1) yx res) = s.
Proof. rewrite /leave /=. rewrite setv_same. by rewrite setv_same setm_same. Qed.
Lemma leave_leave Hk xk xkp1 s A u w i : leave Hk xk xkp1 (setv (setv (setm s Hk A) xkp1 u) xk w) i = leave Hk xk xkp1 s i.
Proof.
  rewrite /leave /setm /setv /=. congr ST; apply: functional_extensionality => b; by repeat case: ifP.
Qed.
Lemma leave_H Hk xk xkp1 s A u w yx res : u = vecs s xk -> w = vecs s xkp1 -> leave Hk xk xkp1 s (IT A u w yx res) = setm s Hk A.
Proof.
  move=> -> ->. rewrite /leave /= !setv_same. by [].
Qed.
Lemma loop_apart fuel ldlt h relin yk Hk xk xkp1 eps : yk != xk -> yk != xkp1 -> xk != xkp1 -> forall yx res s,
  unweighted_loop_at fuel ldlt h relin yk Hk xk xkp1 eps yx res s =
  (r <- unweighted_loop fuel ldlt h relin (vecs s yk) eps (IT (mats s Hk) (vecs s xk) (vecs s xkp1) yx res) ;;
   Ret (r.1, leave Hk xk xkp1 s r.2)).
Proof.
  move=> D1 D2 D3. elim: fuel => [|fuel IH] yx res s; cbn [unweighted_loop_at unweighted_loop it_res it_x it_H it_x1 it_yx]; destruct (Rlt_dec eps (normv res)) as [L|L]; try done; last (by rewrite /= leave_id); try (by rewrite /= leave_id).
  case: (h (vecs s xk) yx) => //= -[okp y1] /=. case: okp => /=; last by rewrite leave_id.
  case: (relin (vecs s xk) (mats s Hk)) => //= -[okq A] /=. case: okq => /=; last by rewrite leave_H.
  rewrite eqxx. case: (mul _ _) => //= a. case: (subv (vecs s yk) y1) => //= d. case: (mulv _ _) => //= b. case: (ldlt a b) => //= c.
  case: (addv (vecs s xk) c) => //= x1. rewrite !eqxx (negbTE D3). case: (subv x1 (vecs s xk)) => //= res'.
  rewrite IH /=. rewrite (negbTE D1) (negbTE D2) !eqxx. have -> : (xkp1 == xk) = false by rewrite eq_sym (negbTE D3).
  case: (unweighted_loop _ _ _ _ _ _ _) => //= r. by rewrite leave_leave.
Qed.
Lemma nonlinear_apart fuel ldlt h relin yk Hk xk eps xkp1 J s : yk != xk -> yk != xkp1 -> xk != xkp1 ->
  UnweightedNonlinear_at fuel ldlt h relin yk Hk xk eps xkp1 J s =
  (r <- UnweightedNonlinearLeastSquares fuel ldlt h relin (vecs s yk) (mats s Hk) (vecs s xk) eps (vecs s xkp1) J ;;
   let: (b, (A, x, x1, c)) := r in Ret (b, (setm (setv (setv s xkp1 x1) xk x) Hk A, c))).
Proof.
  move=> D1 D2 D3. have Z : forall c, Ret (false, (s, c)) = Ret (false, (setm (setv (setv s xkp1 (vecs s xkp1)) xk (vecs s xk)) Hk (mats s Hk), c)) :> outcome (bool * (store * R)).
  { move=> c. by rewrite setv_same setv_same setm_same. }
  rewrite /UnweightedNonlinear_at /UnweightedNonlinearLeastSquares.
  case: ifP => _; first exact: Z. case: ifP => _; first exact: Z. case: ifP => _; first exact: Z.
  case: (subv _ _) => //= res. rewrite loop_apart //.
  case: (unweighted_loop _ _ _ _ _ _ _) => //= -[b i] /=. case: b => //=.
  rewrite !eqxx (negbTE D1) (negbTE D2). have -> : (xkp1 == xk) = false by rewrite eq_sym (negbTE D3).
  case: (ComputeCostFunction _ _ _ _) => //= -[[] c] //=.
Qed.
Lemma nonlinear_shared fuel ldlt h relin m n (y : 'cV[R]_m) (H : 'M[R]_(m, n)) (x : 'cV[R]_n) yk Hk xk eps J s : (n <= m)%N -> Rle 0 eps ->
  vecs s yk = DV y -> mats s Hk = DM H -> vecs s xk = DV x ->
  UnweightedNonlinear_at fuel ldlt h relin yk Hk xk eps xk J s = Ret (true, (s, Rmult (Rdiv 1 2) (sq (y - H *m x)))).
Proof.
  move=> Hmn E Ey EH Ex. rewrite /UnweightedNonlinear_at Ey EH Ex wrong_size_ok /= eqxx /= ltnNge Hmn /=. eig.
  have Z : ~ Rlt eps (normv (DV (x - x))).
  { rewrite subrr normv_len /len /sq big1 ?sqrt_0 => [|i _]; [lra|by rewrite mxE mulr0]. }
  case: fuel => [|fuel] /=; case: (Rlt_dec _ _) => // _ /=; by rewrite Ey EH Ex cost_ok.
Qed.
Lemma neg_sq (t : R) : Rmult (Rplus t (Ropp (Rmult 2 t))) (Rplus t (Ropp (Rmult 2 t))) = Rmult t t.
Proof. ring. Qed.
Lemma doubled ldlt n (x : 'cV[R]_n) a b J s : ldlt_ok ldlt -> vecs s a = DV (IZR 2 *: x) -> mats s b = DM ((IZR 2)%:M : 'M[R]_n) ->
  UnweightedLinear_at ldlt a b a J s = Ret (true, (setv s a (DV x), Rmult (Rdiv 1 2) (sq x))).
Proof.
  move=> L Ey EH. have [v [E B]] := linear_shared J L Ey EH.
  have V : v = x.
  { have := B x. rewrite !mul_scalar_mx subrr. have -> : sq (0 : 'cV[R]_n) = 0 by rewrite /sq big1 // => i _; rewrite mxE mulr0.
    move=> N. apply/eqP. rewrite -subr_eq0. apply/eqP. have S : sq (IZR 2 *: x - IZR 2 *: v) = 0 by apply: Rle_antisym N _; by rewrite -sq_qf; exact: qf_1_ge0.
    have := sq_eq0 S. rewrite -scalerBr. move=> /eqP. rewrite scaler_eq0. have -> : (IZR 2 == 0 :> R) = false by apply/eqP; toR; lra.
    move=> /= /eqP K. by rewrite -opprB K oppr0. }
  rewrite E V. congr (Ret (_, (_, Rmult _ _))). rewrite mul_scalar_mx. rewrite /sq. apply: eq_bigr => i _. rewrite !mxE. move: (x i 0) => t. rewrite -[LHS]/(Rmult (Rplus t (Ropp (Rmult 2 t))) (Rplus t (Ropp (Rmult 2 t)))) -[RHS]/(Rmult t t). exact: neg_sq.
Qed.
