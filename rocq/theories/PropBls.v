(** Claims about batch least squares (src/filter/BatchLeastSquares.cpp).  [ldlt]
    stands for Eigen's LDLT solver, of which only [ldlt_ok] is assumed. *)
From Coq Require Import Reals Lra.
From mathcomp Require Import all_ssreflect all_algebra.
From Verif Require Import Base BaseMx ModelEigen ModelKalman ModelBls SpecKalman SpecFilter SpecBls ProofMx ProofKalman ProofKalman2 ProofKalman3 ProofKalman4 ProofBls ProofBls2 ProofBls3.
Set Implicit Arguments.
Unset Strict Implicit.
Unset Printing Implicit Defensive.
Import GRing.Theory.
Local Open Scope ring_scope.
Local Open Scope outcome_scope.

(** There is a solver as assumed. *)
Example solver_exists : ldlt_ok pinv_solver.
Proof. exact: pinv_solver_ok. Qed.
(** The best single value for two readings a and b is their mean. *)
Definition ones : 'M[R]_(2, 1) := const_mx 1.
Definition pair2 (a b : R) : 'cV[R]_2 := \matrix_(i, _) if i == 0 then a else b.
Example ones_full_rank : full_rank ones.
Proof.
  move=> v E. apply/matrixP => i j. rewrite !ord1 [RHS]mxE. have := f_equal (fun M : 'cV[R]_2 => M 0 0) E.
  by rewrite !mxE big_ord1 mxE mul1r.
Qed.
Example mean_of_two : forall ldlt (a b : R) x0 J, ldlt_ok ldlt ->
  UnweightedLinearLeastSquares ldlt (DV (pair2 a b)) (DM ones) (DV (x0 : 'cV[R]_1)) J =
  Ret (true, (DV (const_mx (Rdiv (Rplus a b) 2) : 'cV[R]_1), Rdiv (Rmult (Rminus a b) (Rminus a b)) 4)).
Proof.
  move=> ldlt a b x0 J L.
  rewrite (unweighted_is (x := const_mx (Rdiv (Rplus a b) 2)) _ _ L ones_full_rank (isT : (1 <= 2)%N)).
  - congr (Ret (_, (_, _))). rewrite /sq !big_ord_recl big_ord0 !mxE !big_ord1 !mxE /=. toR. field.
  - rewrite mulmx1. apply/matrixP => i j. rewrite !ord1 -mulmxA !mxE !big_ord_recl !big_ord0 !mxE !big_ord1 !mxE /=. toR. field.
Qed.

(** C55 *)
Theorem C55_unweighted : forall ldlt m n (y : 'cV[R]_m) (H : 'M[R]_(m, n)) (x0 : 'cV[R]_n) J,
  ldlt_ok ldlt -> (n <= m)%N ->
  exists x : 'cV[R]_n,
    UnweightedLinearLeastSquares ldlt (DV y) (DM H) (DV x0) J = Ret (true, (DV x, Rmult (Rdiv 1 2) (sq (y - H *m x)))) /\
    (forall v, Rle (sq (y - H *m x)) (sq (y - H *m v))) /\
    (full_rank H -> forall v, Rle (sq (y - H *m v)) (sq (y - H *m x)) -> v = x).
Proof. exact unweighted_best. Qed.
Print Assumptions C55_unweighted.

(** C56.  The state is optimal; J is half the unweighted squared residual. *)
Theorem C56_weighted : forall ldlt m n (y : 'cV[R]_m) (H : 'M[R]_(m, n)) (W : 'M[R]_m) (x0 : 'cV[R]_n) J,
  ldlt_ok ldlt -> pd W -> (n <= m)%N ->
  exists x : 'cV[R]_n,
    WeightedLinearLeastSquares ldlt (DV y) (DM H) (DM W) (DV x0) J = Ret (true, (DV x, Rmult (Rdiv 1 2) (sq (y - H *m x)))) /\
    (forall v, Rle (qf W (y - H *m x)) (qf W (y - H *m v))) /\
    (full_rank H -> forall v, Rle (qf W (y - H *m v)) (qf W (y - H *m x)) -> v = x).
Proof. exact weighted_best. Qed.
Print Assumptions C56_weighted.
(** The reported J is not half the weighted cost. *)
Theorem C56_cost_refuted : exists (W : 'M[R]_2) (y : 'cV[R]_2), pd W /\ forall ldlt (x0 : 'cV[R]_1) J0, ldlt_ok ldlt ->
  exists (x : 'cV[R]_1) J, WeightedLinearLeastSquares ldlt (DV y) (DM ones) (DM W) (DV x0) J0 = Ret (true, (DV x, J)) /\
    J <> Rmult (Rdiv 1 2) (qf W (y - ones *m x)).
Proof.
  have P2 : Rlt 0 2 by lra.
  exists ((IZR 2)%:M), (pair2 1 (-1)). split; first by rewrite -scalemx1; exact: pd_scale (pd1 2).
  move=> ldlt x0 J0 L. rewrite weighted_scalar // ?mean_of_two //; last exact: ones_full_rank.
  eexists; eexists. split; first reflexivity.
  have Q v : qf ((IZR 2)%:M : 'M[R]_2) v = Rmult 2 (sq v) by rewrite /qf mul_mx_scalar -scalemxAl mxE dot_sq.
  rewrite Q /sq !big_ord_recl big_ord0 !mxE !big_ord1 !mxE /=. toR. lra.
Qed.
Print Assumptions C56_cost_refuted.

(** C57 *)
Theorem C57_scaled_identity : forall ldlt m n (y : 'cV[R]_m) (H : 'M[R]_(m, n)) (x0 : 'cV[R]_n) J (c : R),
  ldlt_ok ldlt -> full_rank H -> (n <= m)%N -> Rlt 0 c ->
  WeightedLinearLeastSquares ldlt (DV y) (DM H) (DM (c%:M : 'M[R]_m)) (DV x0) J =
  UnweightedLinearLeastSquares ldlt (DV y) (DM H) (DV x0) J.
Proof. exact weighted_scalar. Qed.
Print Assumptions C57_scaled_identity.
Theorem C57_scaled_weight : forall ldlt m n (y : 'cV[R]_m) (H : 'M[R]_(m, n)) (W : 'M[R]_m) (x0 : 'cV[R]_n) J c,
  ldlt_ok ldlt -> pd W -> full_rank H -> (n <= m)%N -> Rlt 0 c ->
  WeightedLinearLeastSquares ldlt (DV y) (DM H) (DM (c *: W)) (DV x0) J =
  WeightedLinearLeastSquares ldlt (DV y) (DM H) (DM W) (DV x0) J.
Proof. exact weighted_scale. Qed.
Print Assumptions C57_scaled_weight.

(** C58 *)
Theorem C58_unweighted : forall ldlt yk Hk xk J, ldlt_ok ldlt ->
  (lin_sizes yk Hk xk -> exists r, UnweightedLinearLeastSquares ldlt yk Hk xk J = Ret (true, r)) /\
  (~ lin_sizes yk Hk xk -> UnweightedLinearLeastSquares ldlt yk Hk xk J = Ret (false, (xk, J))).
Proof.
  move=> ldlt yk Hk xk J L. split; last exact: unweighted_rejects.
  move=> /typed [m [n [y [H [x [-> -> -> Hmn]]]]]]. have [x' [-> _]] := unweighted_ok y H x J L Hmn. by eexists.
Qed.
Print Assumptions C58_unweighted.
Theorem C58_weighted : forall ldlt yk Hk Wk xk J, ldlt_ok ldlt -> (forall m (W : 'M[R]_m), Wk = DM W -> psd W) ->
  (lin_sizes yk Hk xk /\ has_size Wk (dv_n yk) (dv_n yk) -> exists r, WeightedLinearLeastSquares ldlt yk Hk Wk xk J = Ret (true, r)) /\
  (~ (lin_sizes yk Hk xk /\ has_size Wk (dv_n yk) (dv_n yk)) -> WeightedLinearLeastSquares ldlt yk Hk Wk xk J = Ret (false, (xk, J))).
Proof.
  move=> ldlt yk Hk Wk xk J L HW. split; last exact: weighted_rejects.
  move=> [/typed [m [n [y [H [x [-> -> -> Hmn]]]]]] /typed_mx [W E]].
  have [x' [R' _]] := weighted_ok y H x J L (HW _ _ E) Hmn. rewrite E. by eexists; exact: R'.
Qed.
Print Assumptions C58_weighted.
(** With user functions that succeed, the iteration reports failure only for
    wrong sizes.  [NoFuel] is a loop that has not ended. *)
Theorem C58_unweighted_nonlinear : forall fuel ldlt p q yk Hk xk eps x1 J,
  (~ (lin_sizes yk Hk xk /\ dv_n x1 = dv_n xk) ->
     UnweightedNonlinearLeastSquares fuel ldlt p q yk Hk xk eps x1 J = Ret (false, (Hk, xk, x1, J))) /\
  forall (h : 'cV[R]_(dv_n xk) -> 'cV[R]_(dv_n yk)) (Hf : 'cV[R]_(dv_n xk) -> 'M[R]_(dv_n yk, dv_n xk)), ldlt_ok ldlt -> predicts p h -> linearizes q Hf ->
  lin_sizes yk Hk xk /\ dv_n x1 = dv_n xk ->
  UnweightedNonlinearLeastSquares fuel ldlt p q yk Hk xk eps x1 J = NoFuel \/
  exists r, UnweightedNonlinearLeastSquares fuel ldlt p q yk Hk xk eps x1 J = Ret (true, r).
Proof.
  move=> fuel ldlt p q yk Hk xk eps x1 J. split; first exact: unl_rejects.
  move=> h Hf L Hp Hq [/typed [m [n [y [H [x [Ey EH Ex Hmn]]]]]]]. subst yk Hk xk. move=> /typed_v [w ->].
  rewrite (unl_wnl y eps H x w J L Hp Hq Hmn). exact: wnl_total L Hp Hq (psd1 m) Hmn fuel.
Qed.
Print Assumptions C58_unweighted_nonlinear.
Theorem C58_weighted_nonlinear : forall fuel ldlt p q yk Hk xk Wk eps x1 J,
  (~ [/\ lin_sizes yk Hk xk, dv_n x1 = dv_n xk & has_size Wk (dv_n yk) (dv_n yk)] ->
     WeightedNonlinearLeastSquares fuel ldlt p q yk Hk xk Wk eps x1 J = Ret (false, (Hk, xk, x1, J))) /\
  forall (h : 'cV[R]_(dv_n xk) -> 'cV[R]_(dv_n yk)) (Hf : 'cV[R]_(dv_n xk) -> 'M[R]_(dv_n yk, dv_n xk)), ldlt_ok ldlt -> predicts p h -> linearizes q Hf ->
  (forall m (W : 'M[R]_m), Wk = DM W -> psd W) ->
  [/\ lin_sizes yk Hk xk, dv_n x1 = dv_n xk & has_size Wk (dv_n yk) (dv_n yk)] ->
  WeightedNonlinearLeastSquares fuel ldlt p q yk Hk xk Wk eps x1 J = NoFuel \/
  exists r, WeightedNonlinearLeastSquares fuel ldlt p q yk Hk xk Wk eps x1 J = Ret (true, r).
Proof.
  move=> fuel ldlt p q yk Hk xk Wk eps x1 J. split; first exact: wnl_rejects.
  move=> h Hf L Hp Hq HW [/typed [m [n [y [H [x [Ey EH Ex Hmn]]]]]]]. subst yk Hk xk. move=> /typed_v [w ->] /typed_mx [W E].
  rewrite E. exact: wnl_total L Hp Hq (HW _ _ E) Hmn fuel.
Qed.
Print Assumptions C58_weighted_nonlinear.

(** C59.  A call that returns made Gauss-Newton steps xs 0, xs 1, ..., each of
    them optimal for the linearised problem; the last one, and no earlier one, was
    at most eps long.  It made no step at all if the two start vectors were that
    close. *)
Theorem C59_weighted : forall fuel ldlt p q m n (h : 'cV[R]_n -> 'cV[R]_m) (Hf : 'cV[R]_n -> 'M[R]_(m, n)) (W : 'M[R]_m) (y : 'cV[R]_m) eps (H : 'M[R]_(m, n)) (x x1 : 'cV[R]_n) J b r,
  ldlt_ok ldlt -> predicts p h -> linearizes q Hf -> psd W -> (n <= m)%N ->
  WeightedNonlinearLeastSquares fuel ldlt p q (DV y) (DM H) (DV x) (DM W) eps (DV x1) J = Ret (b, r) ->
  b = true /\
  ((Rle (len (x1 - x)) eps /\ r = (DM H, DV x, DV x1, Rmult (Rdiv 1 2) (sq (y - H *m x1)))) \/
   (Rlt eps (len (x1 - x)) /\ exists k xs, [/\ xs 0%N = x,
      forall i, (i <= k)%N -> gauss_newton W h Hf y (xs i) (xs i.+1),
      forall i, (i < k)%N -> Rlt eps (len (xs i.+1 - xs i)),
      Rle (len (xs k.+1 - xs k)) eps &
      r = (DM (Hf (xs k)), DV (xs k.+1), DV (xs k.+1), Rmult (Rdiv 1 2) (sq (y - Hf (xs k) *m xs k.+1)))])).
Proof. exact wnl_steps. Qed.
Print Assumptions C59_weighted.
Theorem C59_unweighted : forall fuel ldlt p q m n (h : 'cV[R]_n -> 'cV[R]_m) (Hf : 'cV[R]_n -> 'M[R]_(m, n)) (y : 'cV[R]_m) eps (H : 'M[R]_(m, n)) (x x1 : 'cV[R]_n) J b r,
  ldlt_ok ldlt -> predicts p h -> linearizes q Hf -> (n <= m)%N ->
  UnweightedNonlinearLeastSquares fuel ldlt p q (DV y) (DM H) (DV x) eps (DV x1) J = Ret (b, r) ->
  b = true /\
  ((Rle (len (x1 - x)) eps /\ r = (DM H, DV x, DV x1, Rmult (Rdiv 1 2) (sq (y - H *m x1)))) \/
   (Rlt eps (len (x1 - x)) /\ exists k xs, [/\ xs 0%N = x,
      forall i, (i <= k)%N -> gauss_newton 1%:M h Hf y (xs i) (xs i.+1),
      forall i, (i < k)%N -> Rlt eps (len (xs i.+1 - xs i)),
      Rle (len (xs k.+1 - xs k)) eps &
      r = (DM (Hf (xs k)), DV (xs k.+1), DV (xs k.+1), Rmult (Rdiv 1 2) (sq (y - Hf (xs k) *m xs k.+1)))])).
Proof. exact unl_steps. Qed.
Print Assumptions C59_unweighted.
(** With eps = 0, what is returned after iterating is a stationary point. *)
Theorem C59_stationary : forall fuel ldlt p q m n (h : 'cV[R]_n -> 'cV[R]_m) (Hf : 'cV[R]_n -> 'M[R]_(m, n)) (W : 'M[R]_m) (y : 'cV[R]_m) (H : 'M[R]_(m, n)) (x x1 : 'cV[R]_n) J b H' x' x1' J',
  ldlt_ok ldlt -> predicts p h -> linearizes q Hf -> psd W -> (n <= m)%N -> x1 <> x ->
  WeightedNonlinearLeastSquares fuel ldlt p q (DV y) (DM H) (DV x) (DM W) 0 (DV x1) J = Ret (b, (H', DV x', x1', J')) ->
  x1' = DV (x' : 'cV[R]_n) /\ (Hf x')^T *m W *m (y - h x') = 0.
Proof. exact wnl_stationary. Qed.
Print Assumptions C59_stationary.
(** Linear (affine) model with independent columns: the best fit of y - c after
    at most two iterations. *)
Theorem C59_linear : forall fuel ldlt p q m n (W : 'M[R]_m) (y c : 'cV[R]_m) eps (H A : 'M[R]_(m, n)) (x x1 : 'cV[R]_n) J,
  ldlt_ok ldlt -> predicts p (fun x : 'cV[R]_n => A *m x + c) -> linearizes q (fun _ : 'cV[R]_n => A) -> pd W -> full_rank A -> (n <= m)%N ->
  Rle 0 eps -> Rlt eps (len (x1 - x)) -> (2 <= fuel)%N ->
  exists s : 'cV[R]_n, WeightedNonlinearLeastSquares fuel ldlt p q (DV y) (DM H) (DV x) (DM W) eps (DV x1) J =
    Ret (true, (DM A, DV s, DV s, Rmult (Rdiv 1 2) (sq (y - A *m s)))) /\
    forall v, Rle (qf W (y - (A *m s + c))) (qf W (y - (A *m v + c))).
Proof.
  move=> fuel ldlt p q m n W y c eps H A x x1 J L Hp Hq HW F Hmn E0 E Hf.
  have [s [Es N]] := wnl_affine y H J L Hp Hq HW F Hmn E0 E Hf. exists s. split=> // v.
  have := normal_best (pd_psd HW) N v. have C u : y - (A *m u + c) = y - c - A *m u by mx_abel. by rewrite !C.
Qed.
Print Assumptions C59_linear.
Theorem C59_linear_unweighted : forall fuel ldlt p q m n (y c : 'cV[R]_m) eps (H A : 'M[R]_(m, n)) (x x1 : 'cV[R]_n) J,
  ldlt_ok ldlt -> predicts p (fun x : 'cV[R]_n => A *m x + c) -> linearizes q (fun _ : 'cV[R]_n => A) -> full_rank A -> (n <= m)%N ->
  Rle 0 eps -> Rlt eps (len (x1 - x)) -> (2 <= fuel)%N ->
  exists s : 'cV[R]_n, UnweightedNonlinearLeastSquares fuel ldlt p q (DV y) (DM H) (DV x) eps (DV x1) J =
    Ret (true, (DM A, DV s, DV s, Rmult (Rdiv 1 2) (sq (y - A *m s)))) /\
    forall v, Rle (sq (y - (A *m s + c))) (sq (y - (A *m v + c))).
Proof.
  move=> fuel ldlt p q m n y c eps H A x x1 J L Hp Hq F Hmn E0 E Hf.
  have [s [Es N]] := C59_linear y H J L Hp Hq (pd1 m) F Hmn E0 E Hf. exists s. split; first by rewrite (unl_wnl y eps H x x1 J L Hp Hq Hmn).
  move=> v. by have := N v; rewrite !sq_qf.
Qed.
Print Assumptions C59_linear_unweighted.
(** J is the cost of Hk * xkp1, not of the user's model. *)
Theorem C59_cost_refuted : exists (p : predictor) (q : relinearizer) (h : 'cV[R]_1 -> 'cV[R]_1) (Hf : 'cV[R]_1 -> 'M[R]_1) (y x x1 : 'cV[R]_1),
  predicts p h /\ linearizes q Hf /\ forall ldlt, ldlt_ok ldlt -> exists (s : 'cV[R]_1) J,
  WeightedNonlinearLeastSquares 2 ldlt p q (DV y) (DM (1%:M : 'M[R]_1)) (DV x) (DM (1%:M : 'M[R]_1)) 0 (DV x1) 0 =
    Ret (true, (DM (Hf s), DV s, DV s, J)) /\ J <> Rmult (Rdiv 1 2) (sq (y - h s)).
Proof. exact wnl_loop_cost_wrong. Qed.
Print Assumptions C59_cost_refuted.
Theorem C59_negative_eps : forall fuel ldlt p q m n (h : 'cV[R]_n -> 'cV[R]_m) (Hf : 'cV[R]_n -> 'M[R]_(m, n)) (W : 'M[R]_m) (y : 'cV[R]_m) eps (H : 'M[R]_(m, n)) (x x1 : 'cV[R]_n) J,
  ldlt_ok ldlt -> predicts p h -> linearizes q Hf -> psd W -> (n <= m)%N -> Rlt eps 0 ->
  WeightedNonlinearLeastSquares fuel ldlt p q (DV y) (DM H) (DV x) (DM W) eps (DV x1) J = NoFuel /\
  UnweightedNonlinearLeastSquares fuel ldlt p q (DV y) (DM H) (DV x) eps (DV x1) J = NoFuel.
Proof.
  move=> fuel ldlt p q m n h Hf W y eps H x x1 J L Hp Hq HW Hmn E. split; first exact: (wnl_diverges y H x x1 J L Hp Hq HW Hmn fuel E).
  rewrite (unl_wnl y eps H x x1 J L Hp Hq Hmn). exact: (wnl_diverges y H x x1 J L Hp Hq (psd1 m) Hmn fuel E).
Qed.
Print Assumptions C59_negative_eps.
(** Started with both vectors at the same guess, the call reports success and
    returns the guess, whatever the measurements and the model. *)
Theorem C59_same_start : forall fuel ldlt p q m n (W : 'M[R]_m) (y : 'cV[R]_m) eps (H : 'M[R]_(m, n)) (x : 'cV[R]_n) J,
  (n <= m)%N -> Rle 0 eps ->
  WeightedNonlinearLeastSquares fuel ldlt p q (DV y) (DM H) (DV x) (DM W) eps (DV x) J =
    Ret (true, (DM H, DV x, DV x, Rmult (Rdiv 1 2) (sq (y - H *m x)))) /\
  UnweightedNonlinearLeastSquares fuel ldlt p q (DV y) (DM H) (DV x) eps (DV x) J =
    Ret (true, (DM H, DV x, DV x, Rmult (Rdiv 1 2) (sq (y - H *m x)))).
Proof.
  move=> fuel ldlt p q m n W y eps H x J Hmn E.
  have Z : Rle (len (x - x)) eps by rewrite subrr /len /sq big1 ?sqrt_0 // => i _; rewrite mxE mulr0.
  split; [exact: wnl_stop|exact: unl_stop].
Qed.
Print Assumptions C59_same_start.

(** C60 *)
Theorem C60_weighted : forall fuel ldlt m n (W : 'M[R]_m) (y : 'cV[R]_m) eps (H : 'M[R]_(m, n)) (x x1 : 'cV[R]_n) J,
  (n <= m)%N ->
  (Rle (len (x1 - x)) eps ->
   WeightedNonlinearLeastSquares fuel ldlt shippedPredictor shippedRelinearizeH (DV y) (DM H) (DV x) (DM W) eps (DV x1) J =
   Ret (true, (DM H, DV x, DV x1, Rmult (Rdiv 1 2) (sq (y - H *m x1))))) /\
  (Rlt eps (len (x1 - x)) -> (0 < m)%N ->
   WeightedNonlinearLeastSquares fuel.+1 ldlt shippedPredictor shippedRelinearizeH (DV y) (DM H) (DV x) (DM W) eps (DV x1) J = Undef).
Proof. move=> fuel ldlt m n W y eps H x x1 J Hmn. split; [exact: wnl_stop|exact: wnl_shipped]. Qed.
Print Assumptions C60_weighted.
Theorem C60_unweighted : forall fuel ldlt m n (y : 'cV[R]_m) eps (H : 'M[R]_(m, n)) (x x1 : 'cV[R]_n) J,
  (n <= m)%N ->
  (Rle (len (x1 - x)) eps ->
   UnweightedNonlinearLeastSquares fuel ldlt shippedPredictor shippedRelinearizeH (DV y) (DM H) (DV x) eps (DV x1) J =
   Ret (true, (DM H, DV x, DV x1, Rmult (Rdiv 1 2) (sq (y - H *m x1))))) /\
  (Rlt eps (len (x1 - x)) -> (0 < m)%N ->
   UnweightedNonlinearLeastSquares fuel.+1 ldlt shippedPredictor shippedRelinearizeH (DV y) (DM H) (DV x) eps (DV x1) J = Undef).
Proof. move=> fuel ldlt m n y eps H x x1 J Hmn. split; [exact: unl_stop|exact: unl_shipped]. Qed.
Print Assumptions C60_unweighted.

(** C87: the Kalman update is weighted least squares of the prior estimate and
    the measurement together. *)
Theorem C87_update_is_least_squares : forall ldlt n m (x x1 x' x0 : 'cV[R]_n) (z : 'cV[R]_m) (P P1 P' : 'M[R]_n) (H : 'M[R]_(m, n)) (Rk : 'M[R]_m) J,
  ldlt_ok ldlt -> pd P -> pd Rk ->
  filterUpdate (DV x) (DM P) (DV z) (DM H) (DM Rk) (DV x1) (DM P1) = Ret (true, (DV x', DM P')) ->
  exists J', WeightedLinearLeastSquares ldlt (DV (col_mx x z)) (DM (col_mx 1%:M H)) (DM (block_mx (invmx P) 0 0 (invmx Rk))) (DV x0) J =
    Ret (true, (DV x', J')).
Proof. exact update_is_wls. Qed.
Print Assumptions C87_update_is_least_squares.

(** C88 *)
Theorem C88_exact_weighted : forall ldlt m n (H : 'M[R]_(m, n)) (W : 'M[R]_m) (x x0 : 'cV[R]_n) J,
  ldlt_ok ldlt -> pd W -> full_rank H -> (n <= m)%N ->
  WeightedLinearLeastSquares ldlt (DV (H *m x)) (DM H) (DM W) (DV x0) J = Ret (true, (DV x, R0)).
Proof. exact weighted_exact. Qed.
Print Assumptions C88_exact_weighted.
Theorem C88_exact_unweighted : forall ldlt m n (H : 'M[R]_(m, n)) (x x0 : 'cV[R]_n) J,
  ldlt_ok ldlt -> full_rank H -> (n <= m)%N ->
  UnweightedLinearLeastSquares ldlt (DV (H *m x)) (DM H) (DV x0) J = Ret (true, (DV x, R0)).
Proof. exact unweighted_exact. Qed.
Print Assumptions C88_exact_unweighted.

(** Noise of plus or minus one with equal probability. *)
Example coin_noise : let p (_ : bool) := Rdiv 1 2 in let V (b : bool) : 'cV[R]_1 := const_mx (if b then R1 else Ropp 1) in
  [/\ weights p, mean p V = 0 & pd (cov p V)].
Proof.
  move=> p V. have M : mean p V = 0.
  { apply/matrixP => i j. rewrite /mean big_bool /= !mxE /p. toR. lra. }
  split=> //.
  - rewrite /weights big_bool /= /p. toR. lra.
  - have -> : cov p V = 1%:M; last exact: pd1. apply/matrixP => i j. rewrite !ord1 /cov M big_bool /= !subr0 !mxE !big_ord1 !mxE eqxx mulr1n /p /=. toR. lra.
Qed.
(** C89: given the noise covariance, the estimates are unbiased, their covariance
    is the inverse of H^T R^-1 H, and no linear unbiased estimator has a smaller one. *)
Theorem C89_best_linear_unbiased : forall ldlt (I : finType) (p : I -> R) m n (V : I -> 'cV[R]_m) (H : 'M[R]_(m, n)) (x0 xs : 'cV[R]_n) J,
  ldlt_ok ldlt -> weights p -> mean p V = 0 -> pd (cov p V) -> full_rank H -> (n <= m)%N ->
  exists (xh : I -> 'cV[R]_n) (Jh : I -> R),
   [/\ forall i, WeightedLinearLeastSquares ldlt (DV (H *m x0 + V i)) (DM H) (DM (invmx (cov p V))) (DV xs) J = Ret (true, (DV (xh i), Jh i)),
       mean p xh = x0, (H^T *m invmx (cov p V) *m H) *m cov p xh = 1%:M
     & forall L : 'M[R]_(n, m), L *m H = 1%:M -> loewner (cov p xh) (cov p (fun i => L *m (H *m x0 + V i)))].
Proof. exact weighted_blue. Qed.
Print Assumptions C89_best_linear_unbiased.
