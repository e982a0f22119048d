(** Proofs about least squares, part 2: the functions. *)
From Coq Require Import Reals Lra.
From mathcomp Require Import all_ssreflect all_algebra.
From Verif Require Import Base BaseMx ModelEigen ModelKalman ModelBls SpecKalman SpecFilter SpecBls ProofMx ProofKalman ProofKalman2 ProofKalman3 ProofKalman4 ProofBls.
Set Implicit Arguments.
Unset Strict Implicit.
Unset Printing Implicit Defensive.
Import GRing.Theory.
Local Open Scope ring_scope.
Local Open Scope outcome_scope.

Lemma psd1 n : psd (1%:M : 'M[R]_n). Proof. exact: pd_psd (pd1 n). Qed.

(** A solver that satisfies the contract. *)
Definition pinv_solver : solver := fun A b =>
  match as_mx (dv_n b) (dv_n b) A with
  | Ret a => Ret (DV (pinvmx a *m dv_v b))
  | _ => Undef
  end.
Lemma pinv_solver_ok : ldlt_ok pinv_solver.
Proof.
  move=> n A b v _ E. exists (pinvmx A *m b). split; first by rewrite /pinv_solver as_mx_ok.
  have P := mulmxKpV (submx_refl A). by rewrite -E mulmxA [A *m pinvmx A *m _]mulmxA P.
Qed.

Lemma cost_ok m n (y : 'cV[R]_m) (H : 'M[R]_(m, n)) (x : 'cV[R]_n) J :
  ComputeCostFunction (DV y) (DM H) (DV x) J = Ret (true, Rmult (Rdiv 1 2) (sq (y - H *m x))).
Proof. by rewrite /ComputeCostFunction wrong_size_ok; eig; rewrite dot_sq. Qed.

Lemma weighted_ok ldlt m n (y : 'cV[R]_m) (H : 'M[R]_(m, n)) (W : 'M[R]_m) (x0 : 'cV[R]_n) J :
  ldlt_ok ldlt -> psd W -> (n <= m)%N ->
  exists x : 'cV[R]_n,
    WeightedLinearLeastSquares ldlt (DV y) (DM H) (DM W) (DV x0) J = Ret (true, (DV x, Rmult (Rdiv 1 2) (sq (y - H *m x)))) /\
    H^T *m W *m H *m x = H^T *m W *m y.
Proof.
  move=> L HW Hmn. have [v Ev] := normal_solvable H y HW. have [x [Ex Nx]] := L _ _ _ _ (psd_congrT H HW) Ev.
  exists x. split=> //. rewrite /WeightedLinearLeastSquares !wrong_size_ok /= ltnNge Hmn /=. rewrite /tr. eig. rewrite Ex /= cost_ok /=. by [].
Qed.
Lemma unweighted_ok ldlt m n (y : 'cV[R]_m) (H : 'M[R]_(m, n)) (x0 : 'cV[R]_n) J :
  ldlt_ok ldlt -> (n <= m)%N ->
  exists x : 'cV[R]_n,
    UnweightedLinearLeastSquares ldlt (DV y) (DM H) (DV x0) J = Ret (true, (DV x, Rmult (Rdiv 1 2) (sq (y - H *m x)))) /\
    H^T *m 1%:M *m H *m x = H^T *m 1%:M *m y.
Proof.
  move=> L Hmn. have [v Ev] := normal_solvable H y (psd1 m). have [x [Ex Nx]] := L _ _ _ _ (psd_congrT H (psd1 m)) Ev.
  exists x. split=> //. rewrite /UnweightedLinearLeastSquares !wrong_size_ok /= ltnNge Hmn /=. rewrite /tr. eig.
  move: Ex. rewrite mulmx1 => ->. by rewrite /= cost_ok.
Qed.

(** ** Guards *)
Lemma lin_sizesP yk Hk xk : lin_sizes yk Hk xk <-> wrong_size Hk (dv_n yk) (dv_n xk) = false /\ (dm_r Hk < dm_c Hk)%N = false.
Proof.
  rewrite wrong_sizeP /lin_sizes /has_size. split; move=> [[-> ->]].
  - by rewrite leqNgt => /negbTE.
  - by move=> E; rewrite leqNgt E.
Qed.
Lemma unweighted_rejects ldlt yk Hk xk J : ~ lin_sizes yk Hk xk ->
  UnweightedLinearLeastSquares ldlt yk Hk xk J = Ret (false, (xk, J)).
Proof.
  move=> N. rewrite /UnweightedLinearLeastSquares. case E1: wrong_size => //. case E2: (_ < _)%N => //.
  case: N. exact/lin_sizesP.
Qed.
Lemma typed yk Hk xk : lin_sizes yk Hk xk -> exists m n (y : 'cV[R]_m) (H : 'M[R]_(m, n)) (x : 'cV[R]_n),
  [/\ yk = DV y, Hk = DM H, xk = DV x & (n <= m)%N].
Proof.
  case: yk => m y. case: Hk => r c H. case: xk => n x. rewrite /lin_sizes /has_size /=. move=> [[? ?] L]. subst.
  by exists m, n, y, H, x.
Qed.
Lemma typed_mx A n : has_size A n n -> exists W : 'M[R]_n, A = DM W.
Proof. case: A => r c A [/= ? ?]. subst. by exists A. Qed.
Lemma typed_v v n : dv_n v = n -> exists w : 'cV[R]_n, v = DV w.
Proof. case: v => r A /= ?. subst. by exists A. Qed.
Lemma weighted_rejects ldlt yk Hk Wk xk J : ~ (lin_sizes yk Hk xk /\ has_size Wk (dv_n yk) (dv_n yk)) ->
  WeightedLinearLeastSquares ldlt yk Hk Wk xk J = Ret (false, (xk, J)).
Proof.
  move=> N. rewrite /WeightedLinearLeastSquares. case E1: (wrong_size Hk) => //. case E3: (wrong_size Wk) => //. case E2: (_ < _)%N => //.
  case: N. split; [exact/lin_sizesP|exact/wrong_sizeP].
Qed.
Lemma unl_rejects fuel ldlt h q yk Hk xk eps x1 J : ~ (lin_sizes yk Hk xk /\ dv_n x1 = dv_n xk) ->
  UnweightedNonlinearLeastSquares fuel ldlt h q yk Hk xk eps x1 J = Ret (false, (Hk, xk, x1, J)).
Proof.
  move=> N. rewrite /UnweightedNonlinearLeastSquares. case E1: (wrong_size Hk) => //. case E3: (_ != _) => //. case E2: (_ < _)%N => //.
  case: N. split; [exact/lin_sizesP|exact/eqP/negbFE].
Qed.
Lemma wnl_rejects fuel ldlt h q yk Hk xk Wk eps x1 J :
  ~ [/\ lin_sizes yk Hk xk, dv_n x1 = dv_n xk & has_size Wk (dv_n yk) (dv_n yk)] ->
  WeightedNonlinearLeastSquares fuel ldlt h q yk Hk xk Wk eps x1 J = Ret (false, (Hk, xk, x1, J)).
Proof.
  move=> N. rewrite /WeightedNonlinearLeastSquares. case E1: (wrong_size Hk) => //. case E3: (_ != _) => //. case E2: (_ < _)%N => //.
  case E4: (wrong_size Wk) => //.
  case: N. split; [exact/lin_sizesP|exact/eqP/negbFE|exact/wrong_sizeP].
Qed.

(** ** The iteration *)
Section Loop.
Variables (ldlt : solver) (p : predictor) (q : relinearizer) (m n : nat) (h : 'cV[R]_n -> 'cV[R]_m) (Hf : 'cV[R]_n -> 'M[R]_(m, n)).
Variables (W : 'M[R]_m) (y : 'cV[R]_m) (eps : R).
Hypotheses (L : ldlt_ok ldlt) (Hp : predicts p h) (Hq : linearizes q Hf) (HW : psd W).

Definition normal_step (x x' : 'cV[R]_n) : Prop := (Hf x)^T *m W *m Hf x *m (x' - x) = (Hf x)^T *m W *m (y - h x).
Lemma step_gn x x' : normal_step x x' -> gauss_newton W h Hf y x x'.
Proof.
  move=> E v. have := normal_best HW E (v - x). rewrite !opprD !addrA. by [].
Qed.
Lemma wl_stop fuel H x1 yx (x r : 'cV[R]_n) : Rle (len r) eps ->
  weighted_loop fuel ldlt p q (DV y) (DM W) eps (IT H (DV x) x1 yx (DV r)) = Ret (true, IT H (DV x) x1 yx (DV r)).
Proof. move=> E. case: fuel => [|f] /=; case: Rlt_dec => //; rewrite normv_len => F; lra. Qed.
Lemma wl_step (x : 'cV[R]_n) : exists x' : 'cV[R]_n, normal_step x x' /\ forall fuel H x1 yx (r : 'cV[R]_n), Rlt eps (len r) ->
  weighted_loop fuel.+1 ldlt p q (DV y) (DM W) eps (IT H (DV x) x1 yx (DV r)) =
  weighted_loop fuel ldlt p q (DV y) (DM W) eps (IT (DM (Hf x)) (DV x') (DV x') (DV (h x)) (DV (x' - x))).
Proof.
  have [v Ev] := normal_solvable (Hf x) (y - h x) HW. have [c [Ec Nc]] := L (psd_congrT (Hf x) HW) Ev.
  exists (x + c). split; first by rewrite /normal_step addrC addKr.
  move=> fuel H x1 yx r E. rewrite [LHS]/=. case: Rlt_dec => [?|]; last by rewrite normv_len.
  rewrite Hp /= Hq /= /tr. eig. rewrite Ec /=. eig. by [].
Qed.

Definition last_step k (xs : nat -> 'cV[R]_n) : Prop := Rle (len (xs k.+1 - xs k)) eps /\ forall i, (i < k)%N -> Rlt eps (len (xs i.+1 - xs i)).
Lemma wl_run fuel : forall H x1 yx (x r : 'cV[R]_n) b s,
  weighted_loop fuel ldlt p q (DV y) (DM W) eps (IT H (DV x) x1 yx (DV r)) = Ret (b, s) ->
  b = true /\
  ((Rle (len r) eps /\ s = IT H (DV x) x1 yx (DV r)) \/
   (Rlt eps (len r) /\ exists k xs, [/\ (k < fuel)%N, xs 0%N = x, forall i, (i <= k)%N -> normal_step (xs i) (xs i.+1), last_step k xs &
      s = IT (DM (Hf (xs k))) (DV (xs k.+1)) (DV (xs k.+1)) (DV (h (xs k))) (DV (xs k.+1 - xs k))])).
Proof.
  elim: fuel => [|f IH] H x1 yx x r b s.
  { move=> /=. case: Rlt_dec => //. rewrite normv_len => /Rnot_lt_le E [<- <-]. by split=> //; left. }
  case: (Rlt_dec eps (len r)) => [E|/Rnot_lt_le E]; last first.
  { rewrite wl_stop // => -[<- <-]. by split=> //; left. }
  have [x' [N R]] := wl_step x. rewrite R // => /IH [-> D]. split=> //. right. split=> //.
  case: D => [[E2 ->]|[E2 [k [xs [Hk H0 Hs [La Lb] ->]]]]].
  - exists 0%N, (fun i => if i is j.+1 then x' else x). split=> //. by case.
  - exists k.+1, (fun i => if i is j.+1 then xs j else x). split=> //.
    + case=> [_|i Hi]; [by rewrite H0|exact: Hs].
    + split=> //. case=> [_|i Hi]; [by rewrite H0|exact: Lb].
Qed.
Lemma wl_false fuel : forall H x1 yx (x r : 'cV[R]_n),
  weighted_loop fuel ldlt p q (DV y) (DM W) eps (IT H (DV x) x1 yx (DV r)) = NoFuel \/
  exists s, weighted_loop fuel ldlt p q (DV y) (DM W) eps (IT H (DV x) x1 yx (DV r)) = Ret (true, s).
Proof.
  elim: fuel => [|f IH] H x1 yx x r.
  { move=> /=. case: Rlt_dec => //= _; [by left|right]. by eexists. }
  case: (Rlt_dec eps (len r)) => [E|/Rnot_lt_le E]; last by rewrite wl_stop //; right; eexists.
  have [x' [N R]] := wl_step x. rewrite R //.
Qed.
Lemma wl_diverges fuel : Rlt eps 0 -> forall H x1 yx (x r : 'cV[R]_n),
  weighted_loop fuel ldlt p q (DV y) (DM W) eps (IT H (DV x) x1 yx (DV r)) = NoFuel.
Proof.
  move=> E. have F (r : 'cV[R]_n) : Rlt eps (len r) by apply: Rlt_le_trans E (sqrt_pos _).
  elim: fuel => [|f IH] H x1 yx x r.
  { rewrite /=. case: Rlt_dec => // C. case: C. by rewrite normv_len. }
  have [x' [N R]] := wl_step x. by rewrite R.
Qed.
End Loop.

Lemma ul_wl ldlt p q m n (h : 'cV[R]_n -> 'cV[R]_m) (Hf : 'cV[R]_n -> 'M[R]_(m, n)) (y : 'cV[R]_m) eps :
  ldlt_ok ldlt -> predicts p h -> linearizes q Hf -> forall fuel H x1 yx (x r : 'cV[R]_n),
  unweighted_loop fuel ldlt p q (DV y) eps (IT H (DV x) x1 yx (DV r)) =
  weighted_loop fuel ldlt p q (DV y) (DM (1%:M : 'M[R]_m)) eps (IT H (DV x) x1 yx (DV r)).
Proof.
  move=> L Hp Hq. elim=> [|f IH] H x1 yx x r //=. case: Rlt_dec => // ?. rewrite Hp /= Hq /= /tr. eig. rewrite !mulmx1.
  have [v Ev] := normal_solvable (Hf x) (y - h x) (psd1 m). have [c [Ec Nc]] := L _ _ _ _ (psd_congrT (Hf x) (psd1 m)) Ev.
  move: Ec. rewrite mulmx1 => -> /=. eig. exact: IH.
Qed.

(** ** The nonlinear functions *)
Section Nonlinear.
Variables (ldlt : solver) (p : predictor) (q : relinearizer) (m n : nat) (h : 'cV[R]_n -> 'cV[R]_m) (Hf : 'cV[R]_n -> 'M[R]_(m, n)).
Variables (W : 'M[R]_m) (y : 'cV[R]_m) (eps : R) (H : 'M[R]_(m, n)) (x x1 : 'cV[R]_n) (J : R).
Hypotheses (L : ldlt_ok ldlt) (Hp : predicts p h) (Hq : linearizes q Hf) (HW : psd W) (Hmn : (n <= m)%N).

Lemma unl_wnl fuel : UnweightedNonlinearLeastSquares fuel ldlt p q (DV y) (DM H) (DV x) eps (DV x1) J =
  WeightedNonlinearLeastSquares fuel ldlt p q (DV y) (DM H) (DV x) (DM (1%:M : 'M[R]_m)) eps (DV x1) J.
Proof.
  rewrite /UnweightedNonlinearLeastSquares /WeightedNonlinearLeastSquares !wrong_size_ok /= eqxx /= ltnNge Hmn /=. eig.
  by rewrite (ul_wl _ _ L Hp Hq).
Qed.
Lemma wnl_eq fuel : WeightedNonlinearLeastSquares fuel ldlt p q (DV y) (DM H) (DV x) (DM W) eps (DV x1) J =
  r <- weighted_loop fuel ldlt p q (DV y) (DM W) eps (IT (DM H) (DV x) (DV x1) (zerov 0) (DV (x1 - x))) ;;
  let s := r.2 in
  if ~~ r.1 then Ret (false, (it_H s, it_x s, it_x1 s, J))
  else
    c <- ComputeCostFunction (DV y) (it_H s) (it_x1 s) J ;;
    if ~~ c.1 then Ret (false, (it_H s, it_x s, it_x1 s, c.2)) else Ret (true, (it_H s, it_x s, it_x1 s, c.2)).
Proof. rewrite /WeightedNonlinearLeastSquares !wrong_size_ok /= eqxx /= ltnNge Hmn /=. eig. by []. Qed.
Lemma wnl_run fuel b r :
  WeightedNonlinearLeastSquares fuel ldlt p q (DV y) (DM H) (DV x) (DM W) eps (DV x1) J = Ret (b, r) ->
  b = true /\
  ((Rle (len (x1 - x)) eps /\ r = (DM H, DV x, DV x1, Rmult (Rdiv 1 2) (sq (y - H *m x1)))) \/
   (Rlt eps (len (x1 - x)) /\ exists k xs, [/\ (k < fuel)%N, xs 0%N = x,
      forall i, (i <= k)%N -> normal_step h Hf W y (xs i) (xs i.+1), last_step eps k xs &
      r = (DM (Hf (xs k)), DV (xs k.+1), DV (xs k.+1), Rmult (Rdiv 1 2) (sq (y - Hf (xs k) *m xs k.+1)))])).
Proof.
  rewrite wnl_eq. case: (wl_false y eps L Hp Hq HW fuel (DM H) (DV x1) (zerov 0) x (x1 - x)) => [->|[s E]] //.
  move: (wl_run L Hp Hq HW E) => [_ D]. rewrite E /=.
  case: D => [[E2 ->]|[E2 [k [xs [Hk H0 Hs Ls ->]]]]] /=; rewrite cost_ok /= => -[<- <-]; split=> //; [by left|right].
  split=> //. by exists k, xs.
Qed.
Lemma wnl_total fuel :
  WeightedNonlinearLeastSquares fuel ldlt p q (DV y) (DM H) (DV x) (DM W) eps (DV x1) J = NoFuel \/
  exists r, WeightedNonlinearLeastSquares fuel ldlt p q (DV y) (DM H) (DV x) (DM W) eps (DV x1) J = Ret (true, r).
Proof.
  rewrite wnl_eq. case: (wl_false y eps L Hp Hq HW fuel (DM H) (DV x1) (zerov 0) x (x1 - x)) => [->|[s E]] /=; [by left|right].
  move: (wl_run L Hp Hq HW E) => [_ D]. rewrite E /=.
  case: D => [[E2 ->]|[E2 [k [xs [Hk H0 Hs Ls ->]]]]] /=; rewrite cost_ok /=; by eexists.
Qed.
Lemma wnl_diverges fuel : Rlt eps 0 ->
  WeightedNonlinearLeastSquares fuel ldlt p q (DV y) (DM H) (DV x) (DM W) eps (DV x1) J = NoFuel.
Proof. move=> E. rewrite wnl_eq. by rewrite (wl_diverges y L Hp Hq HW). Qed.
End Nonlinear.

(** No iteration. *)
Lemma wnl_stop fuel ldlt p q m n (W : 'M[R]_m) (y : 'cV[R]_m) eps (H : 'M[R]_(m, n)) (x x1 : 'cV[R]_n) J :
  (n <= m)%N -> Rle (len (x1 - x)) eps ->
  WeightedNonlinearLeastSquares fuel ldlt p q (DV y) (DM H) (DV x) (DM W) eps (DV x1) J =
  Ret (true, (DM H, DV x, DV x1, Rmult (Rdiv 1 2) (sq (y - H *m x1)))).
Proof. move=> Hmn E. rewrite wnl_eq // wl_stop //=. by rewrite cost_ok. Qed.
Lemma unl_stop fuel ldlt p q m n (y : 'cV[R]_m) eps (H : 'M[R]_(m, n)) (x x1 : 'cV[R]_n) J :
  (n <= m)%N -> Rle (len (x1 - x)) eps ->
  UnweightedNonlinearLeastSquares fuel ldlt p q (DV y) (DM H) (DV x) eps (DV x1) J =
  Ret (true, (DM H, DV x, DV x1, Rmult (Rdiv 1 2) (sq (y - H *m x1)))).
Proof.
  move=> Hmn E. rewrite /UnweightedNonlinearLeastSquares !wrong_size_ok /= eqxx /= ltnNge Hmn /=. eig.
  have -> : unweighted_loop fuel ldlt p q (DV y) eps (IT (DM H) (DV x) (DV x1) (zerov 0) (DV (x1 - x))) =
    Ret (true, IT (DM H) (DV x) (DV x1) (zerov 0) (DV (x1 - x))).
  { case: fuel => [|f] /=; case: Rlt_dec => //; rewrite normv_len => F; lra. }
  by rewrite /= cost_ok.
Qed.

(** A model that is affine and independent columns: two iterations. *)
Lemma wnl_affine fuel ldlt p q m n (W : 'M[R]_m) (y c : 'cV[R]_m) eps (H A : 'M[R]_(m, n)) (x x1 : 'cV[R]_n) J :
  ldlt_ok ldlt -> predicts p (fun x => A *m x + c) -> linearizes q (fun _ : 'cV[R]_n => A) -> pd W -> full_rank A -> (n <= m)%N ->
  Rle 0 eps -> Rlt eps (len (x1 - x)) -> (2 <= fuel)%N ->
  exists s : 'cV[R]_n, WeightedNonlinearLeastSquares fuel ldlt p q (DV y) (DM H) (DV x) (DM W) eps (DV x1) J =
    Ret (true, (DM A, DV s, DV s, Rmult (Rdiv 1 2) (sq (y - A *m s)))) /\ A^T *m W *m A *m s = A^T *m W *m (y - c).
Proof.
  move=> L Hp Hq HW F Hmn E0 E. case: fuel => [|[|f]] // _. rewrite wnl_eq //.
  have NS x0 x' : normal_step (fun x => A *m x + c) (fun _ => A) W y x0 x' -> A^T *m W *m A *m x' = A^T *m W *m (y - c).
  { rewrite /normal_step mulmxBr. have -> : y - (A *m x0 + c) = (y - c) - A *m x0 by mx_abel.
    rewrite [RHS]mulmxBr [in RHS]mulmxA => /eqP. by rewrite -subr_eq opprK subrK => /eqP. }
  have U u v : A^T *m W *m A *m u = A^T *m W *m (y - c) -> A^T *m W *m A *m v = A^T *m W *m (y - c) -> v = u.
  { move=> Eu Ev. apply: (best_unique HW F Eu). exact: normal_best (pd_psd HW) Ev. }
  have [s [Ns Rs]] := wl_step y eps L Hp Hq (pd_psd HW) x. have Es := NS _ _ Ns.
  exists s. split=> //. rewrite Rs //.
  have [s2 [Ns2 Rs2]] := wl_step y eps L Hp Hq (pd_psd HW) s. have Es2 := U _ _ Es (NS _ _ Ns2). subst s2.
  have Z : Rle (len (s - s)) eps.
  { rewrite subrr /len /sq big1 ?sqrt_0 // => i _. by rewrite mxE mulr0. }
  case: (Rlt_dec eps (len (s - x))) => [E2|/Rnot_lt_le E2].
  - rewrite Rs2 // wl_stop //=. by rewrite cost_ok.
  - rewrite wl_stop //=. by rewrite cost_ok.
Qed.

(** ** As shipped *)
Lemma wnl_shipped fuel ldlt m n (W : 'M[R]_m) (y : 'cV[R]_m) eps (H : 'M[R]_(m, n)) (x x1 : 'cV[R]_n) J :
  (n <= m)%N -> Rlt eps (len (x1 - x)) -> (0 < m)%N ->
  WeightedNonlinearLeastSquares fuel.+1 ldlt shippedPredictor shippedRelinearizeH (DV y) (DM H) (DV x) (DM W) eps (DV x1) J = Undef.
Proof.
  move=> Hmn E Hm. rewrite wnl_eq //=. case: Rlt_dec => [?|]; last by rewrite normv_len.
  rewrite /tr. eig. rewrite /subv /= /as_cv /=. case: eq_comparable => // e. by rewrite -e in Hm.
Qed.
Lemma unl_shipped fuel ldlt m n (y : 'cV[R]_m) eps (H : 'M[R]_(m, n)) (x x1 : 'cV[R]_n) J :
  (n <= m)%N -> Rlt eps (len (x1 - x)) -> (0 < m)%N ->
  UnweightedNonlinearLeastSquares fuel.+1 ldlt shippedPredictor shippedRelinearizeH (DV y) (DM H) (DV x) eps (DV x1) J = Undef.
Proof.
  move=> Hmn E Hm. rewrite /UnweightedNonlinearLeastSquares !wrong_size_ok /= eqxx /= ltnNge Hmn /=. eig.
  case: Rlt_dec => [?|]; last by rewrite normv_len.
  rewrite /tr. eig. rewrite /subv /= /as_cv /=. case: eq_comparable => // e. by rewrite -e in Hm.
Qed.
