(** Claim about the nonlinear least squares of src/filter/BatchLeastSquares.cpp:
    the iterations converge.  [ldlt] stands for Eigen's LDLT solver, of which only
    [ldlt_ok] is assumed. *)
From Coq Require Import Reals Lra.
From mathcomp Require Import all_ssreflect all_algebra.
From Verif Require Import Base BaseMx ModelEigen ModelKalman ModelBls SpecKalman SpecFilter SpecBls SpecGaussNewton ProofMx ProofKalman ProofBls ProofBls2 ProofGaussNewton.
Set Implicit Arguments.
Unset Strict Implicit.
Unset Printing Implicit Defensive.
Import GRing.Theory.
Local Open Scope ring_scope.
Local Open Scope outcome_scope.

(** C159.  One step: the error of the new iterate is at most sg / s^2 times the
    old error, plus L / (2 s) times its square. *)
Theorem C159_step : forall m n (W : 'M[R]_m) (h : 'cV[R]_n -> 'cV[R]_m) (Hf : 'cV[R]_n -> 'M[R]_(m, n)) (y : 'cV[R]_m) (xs : 'cV[R]_n) s L sg rho (x x' : 'cV[R]_n),
  psd W -> tame W h Hf y xs s L sg rho -> Rlt 0 s -> Rle 0 L -> Rle 0 sg ->
  Rle (len (x - xs)) rho -> gauss_newton W h Hf y x x' ->
  Rle (len (x' - xs)) (Rplus (Rmult (Rdiv sg (Rmult s s)) (len (x - xs))) (Rmult (Rdiv L (Rmult 2 s)) (Rmult (len (x - xs)) (len (x - xs))))).
Proof.
  move=> m n W h Hf y xs s L sg rho x x' HW T s0 L0 g0 B G. exact: step_err HW T s0 L0 g0 _ _ B (gn_normal HW G).
Qed.
Print Assumptions C159_step.
(** There is one stationary point in the ball. *)
Theorem C159_unique : forall m n (W : 'M[R]_m) (h : 'cV[R]_n -> 'cV[R]_m) (Hf : 'cV[R]_n -> 'M[R]_(m, n)) (y : 'cV[R]_m) (xs : 'cV[R]_n) s L sg rho (x : 'cV[R]_n),
  psd W -> tame W h Hf y xs s L sg rho -> Rlt 0 s -> Rle 0 L -> Rle 0 sg -> Rlt (shrink s L sg rho) 1 ->
  Rle (len (x - xs)) rho -> stationary W h Hf y x -> x = xs.
Proof.
  move=> m n W h Hf y xs s L sg rho x HW T s0 L0 g0 k1 B S. exact: unique_stationary HW T s0 L0 g0 k1 _ B S.
Qed.
Print Assumptions C159_unique.
(** The call: started within rho of xs, it returns after at most j + 1 iterations
    if (1 + k) k^j times the initial error is at most eps, and what it returns is
    close to xs. *)
Theorem C159_weighted : forall m n (W : 'M[R]_m) (h : 'cV[R]_n -> 'cV[R]_m) (Hf : 'cV[R]_n -> 'M[R]_(m, n)) (y : 'cV[R]_m) (xs : 'cV[R]_n) s L sg rho ldlt p q eps j fuel (H : 'M[R]_(m, n)) (x x1 : 'cV[R]_n) J,
  psd W -> tame W h Hf y xs s L sg rho -> Rlt 0 s -> Rle 0 L -> Rle 0 sg ->
  let k := shrink s L sg rho in Rlt k 1 ->
  ldlt_ok ldlt -> predicts p h -> linearizes q Hf -> (n <= m)%N -> (j < fuel)%N -> Rlt eps (len (x1 - x)) ->
  Rle (len (x - xs)) rho -> Rle (Rmult (Rmult (Rplus 1 k) (pow k j)) (len (x - xs))) eps ->
  exists H' x' J', WeightedNonlinearLeastSquares fuel ldlt p q (DV y) (DM H) (DV x) (DM W) eps (DV x1) J = Ret (true, (H', DV x', DV x', J')) /\
  let d := Rdiv eps (Rminus 1 k) in
  Rle (len (x' - xs)) (Rplus (Rmult (Rdiv sg (Rmult s s)) d) (Rmult (Rdiv L (Rmult 2 s)) (Rmult d d))).
Proof.
  move=> m n W h Hf y xs s L sg rho ldlt p q eps j fuel H x x1 J HW T s0 L0 g0 k k1 HL Hp Hq Hmn Hj Er B E.
  exact: (wnl_converges HW T s0 L0 g0 k1 HL Hp Hq H J Hmn Hj Er B E).
Qed.
Print Assumptions C159_weighted.
Theorem C159_unweighted : forall m n (h : 'cV[R]_n -> 'cV[R]_m) (Hf : 'cV[R]_n -> 'M[R]_(m, n)) (y : 'cV[R]_m) (xs : 'cV[R]_n) (s L sg rho : R) ldlt p q eps j fuel (H : 'M[R]_(m, n)) (x x1 : 'cV[R]_n) J,
  tame 1%:M h Hf y xs s L sg rho -> Rlt 0 s -> Rle 0 L -> Rle 0 sg ->
  let k := shrink s L sg rho in Rlt k 1 ->
  ldlt_ok ldlt -> predicts p h -> linearizes q Hf -> (n <= m)%N -> (j < fuel)%N -> Rlt eps (len (x1 - x)) ->
  Rle (len (x - xs)) rho -> Rle (Rmult (Rmult (Rplus 1 k) (pow k j)) (len (x - xs))) eps ->
  exists H' x' J', UnweightedNonlinearLeastSquares fuel ldlt p q (DV y) (DM H) (DV x) eps (DV x1) J = Ret (true, (H', DV x', DV x', J')) /\
  let d := Rdiv eps (Rminus 1 k) in
  Rle (len (x' - xs)) (Rplus (Rmult (Rdiv sg (Rmult s s)) d) (Rmult (Rdiv L (Rmult 2 s)) (Rmult d d))).
Proof. exact unl_converges. Qed.
Print Assumptions C159_unweighted.
(** A value and its square measured with errors, (11/10, 4/5): the stationary
    point is 1.  From 3/2, with eps = 1/1000, ten iterations suffice. *)
Example C159_case : tame 1%:M sqh sqH (pairv (11 / 10) (4 / 5)) (one1 1) (7 / 5) 2 (1 / 5) (1 / 2) /\
  stationary 1%:M sqh sqH (pairv (11 / 10) (4 / 5)) (one1 1) /\
  exists H' x' J', WeightedNonlinearLeastSquares 10 pinv_solver sq_pred sq_relin (DV (pairv (11 / 10) (4 / 5))) (DM (sqH 0)) (DV (one1 (3 / 2))) (DM (1%:M : 'M[R]_2)) (1 / 1000) (DV (one1 0)) 0 =
    Ret (true, (H', DV (x' : 'cV[R]_1), DV x', J')) /\ Rle (Rabs (Rminus (x' 0 0) 1)) (1 / 5000).
Proof. split; [exact: sq_tame|split; [exact: sq_stationary|exact: sq_case]]. Qed.
