(** C165: least squares when arguments are the same object. *)
From Coq Require Import Reals Lra.
From mathcomp Require Import all_ssreflect all_algebra.
From Verif Require Import Base BaseMx ModelEigen ModelKalman ModelBls ModelBlsShared SpecKalman SpecFilter SpecBls ProofBls2 ProofBlsShared.
Set Implicit Arguments.
Unset Strict Implicit.
Unset Printing Implicit Defensive.
Import GRing.Theory.
Local Open Scope ring_scope.
Local Open Scope outcome_scope.

(** On distinct objects the calls write the results of the calls on values. *)
Theorem C165_linear_apart : forall ldlt yk Hk xk J s, yk != xk ->
  UnweightedLinear_at ldlt yk Hk xk J s =
  (r <- UnweightedLinearLeastSquares ldlt (vecs s yk) (mats s Hk) (vecs s xk) J ;; Ret (r.1, (setv s xk r.2.1, r.2.2))).
Proof. exact linear_apart. Qed.
Print Assumptions C165_linear_apart.
Theorem C165_nonlinear_apart : forall fuel ldlt h relin yk Hk xk eps xkp1 J s, yk != xk -> yk != xkp1 -> xk != xkp1 ->
  UnweightedNonlinear_at fuel ldlt h relin yk Hk xk eps xkp1 J s =
  (r <- UnweightedNonlinearLeastSquares fuel ldlt h relin (vecs s yk) (mats s Hk) (vecs s xk) eps (vecs s xkp1) J ;;
   let: (b, (A, x, x1, c)) := r in Ret (b, (setm (setv (setv s xkp1 x1) xk x) Hk A, c))).
Proof. exact nonlinear_apart. Qed.
Print Assumptions C165_nonlinear_apart.
(** Measurements and state in one vector, object [a]: the state is optimal, the
    cost is that of the state taken as the measurements. *)
Theorem C165_linear_shared : forall ldlt n (y : 'cV[R]_n) (H : 'M[R]_n) a b J s, ldlt_ok ldlt -> vecs s a = DV y -> mats s b = DM H ->
  exists x : 'cV[R]_n, UnweightedLinear_at ldlt a b a J s = Ret (true, (setv s a (DV x), Rmult (Rdiv 1 2) (sq (x - H *m x)))) /\
    (forall v, Rle (sq (y - H *m x)) (sq (y - H *m v))).
Proof. exact linear_shared. Qed.
Print Assumptions C165_linear_shared.
(** So the reported cost of exact data can be anything: y = 2 x, H = 2. *)
Theorem C165_shared_cost_refuted : forall ldlt n (x : 'cV[R]_n) a b J s, ldlt_ok ldlt ->
  vecs s a = DV (IZR 2 *: x) -> mats s b = DM ((IZR 2)%:M : 'M[R]_n) ->
  UnweightedLinear_at ldlt a b a J s = Ret (true, (setv s a (DV x), Rmult (Rdiv 1 2) (sq x))).
Proof. exact doubled. Qed.
Print Assumptions C165_shared_cost_refuted.
(** One vector for the old and the new state of the nonlinear call: it reports
    success at once and changes nothing but the cost, whatever the measurements. *)
Theorem C165_nonlinear_shared : forall fuel ldlt h relin m n (y : 'cV[R]_m) (H : 'M[R]_(m, n)) (x : 'cV[R]_n) yk Hk xk eps J s,
  (n <= m)%N -> Rle 0 eps -> vecs s yk = DV y -> mats s Hk = DM H -> vecs s xk = DV x ->
  UnweightedNonlinear_at fuel ldlt h relin yk Hk xk eps xk J s = Ret (true, (s, Rmult (Rdiv 1 2) (sq (y - H *m x)))).
Proof. exact nonlinear_shared. Qed.
Print Assumptions C165_nonlinear_shared.
(** Vector 0 for both, matrix 0 the doubling in two dimensions; and a store in
    which nothing is shared. *)
Example C165_case (x : 'cV[R]_2) J : let s := fresh [:: DV (IZR 2 *: x); DV x] [:: DM ((IZR 2)%:M : 'M[R]_2)] in
  UnweightedLinear_at pinv_solver 0 0 0 J s = Ret (true, (setv s 0 (DV x), Rmult (Rdiv 1 2) (sq x))) /\
  exists x' J', UnweightedLinear_at pinv_solver 0 0 1 J s = Ret (true, (setv s 1 (DV (x' : 'cV[R]_2)), J')).
Proof.
  move=> s. split; first exact: doubled pinv_solver_ok _ _.
  have [x' [E _]] := unweighted_ok (IZR 2 *: x) ((IZR 2)%:M : 'M[R]_2) x J pinv_solver_ok (leqnn 2).
  exists x'. eexists. by rewrite linear_apart // E.
Qed.
