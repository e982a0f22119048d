(** Claims about batch least squares in double arithmetic
    (src/filter/BatchLeastSquares.cpp).  [solve] stands for Eigen's LDLT solver;
    of it only the backward error of the system at hand is assumed. *)
From Coq Require Import Reals Lra.
From mathcomp Require Import all_ssreflect all_algebra.
From Verif Require Import Base BaseMx ModelEigen ModelKalman ModelBls ModelDate ModelFilterFloat ModelBlsFloat SpecFloatOps SpecKalman SpecFilter SpecBls SpecFilterFloat SpecUpdateFloat SpecBlsFloat
  ProofMx ProofFilterFloat ProofUpdateFloat ProofBlsFloat3 ProofBlsFloat4.
Set Implicit Arguments.
Unset Strict Implicit.
Unset Printing Implicit Defensive.
Import GRing.Theory.
Local Open Scope ring_scope.
Local Open Scope outcome_scope.

(** C151.  No weights: the fit is close to the best one, which is unique. *)
Theorem C151_unweighted_error : forall r dot N m n solve (H : 'M[R]_(m, n)) (y : 'cV[R]_m) l s (xf : 'cV[R]_n) Jf,
  rnd_ok r -> dot_ok dot -> Rle (INR N) 1000000 -> (n <= N)%N -> (m <= N)%N -> Rlt 0 l -> Rle l 1 -> Rle 0 s ->
  apart l (H^T *m H) -> (forall i, Rle tiny64 ((H^T *m H) i i)) -> Rle tiny64 (sq y) ->
  (forall x', solve (normal_f dot H) (rhs_f dot H y) = Ret x' -> solved s (normal_f dot H) (rhs_f dot H y) x') ->
  unweighted_f r dot solve y H = Ret (xf, Jf) ->
  let v := Rmult (INR N + 1) u64 in
  let c := Rdiv (INR n) l in
  let e := Rplus (Rmult 2 s) (Rmult 6 v) in
  Rle (Rmult (Rmult 2 (INR n)) e) l ->
  exists x : 'cV[R]_n, (forall z, Rle (sq (y - H *m x)) (sq (y - H *m z))) /\ (forall z, Rle (sq (y - H *m z)) (sq (y - H *m x)) -> z = x) /\
    Rle (len (H *m (xf - x))) (Rmult (Rmult 4 (Rmult e c)) (len y)) /\
    (forall i, Rle (Rmult (sqrt (Rmult l ((H^T *m H) i i))) (Rabs (Rminus (xf i 0) (x i 0)))) (Rmult (Rmult 4 (Rmult e c)) (len y))) /\
    Rle (sq (y - H *m xf)) (Rplus (sq (y - H *m x)) (Rmult (Rmult (Rmult 4 (Rmult e c)) (Rmult 4 (Rmult e c))) (sq y))) /\
    Rle (Rabs (Rminus Jf (Rmult (Rdiv 1 2) (sq (y - H *m x))))) (Rmult (Rplus (Rmult (Rplus 70 (Rmult 300 c)) v) (Rmult 8 (Rmult (Rmult e c) (Rmult e c)))) (sq y)).
Proof. intros. exact: (@unweighted_bound r dot N m n solve). Qed.
Print Assumptions C151_unweighted_error.

(** Weights on the diagonal. *)
Theorem C151_weighted_error : forall r dot N m n solve (H : 'M[R]_(m, n)) (y : 'cV[R]_m) (W : 'M[R]_m) l s (xf : 'cV[R]_n) Jf,
  rnd_ok r -> dot_ok dot -> Rle (INR N) 1000000 -> (n <= N)%N -> (m <= N)%N -> Rlt 0 l -> Rle l 1 -> Rle 0 s ->
  (forall i j, i != j -> W i j = 0) -> (forall i, Rle 0 (W i i)) ->
  let A := H^T *m W *m H in
  apart l A ->
  (forall i j, Rle (Rmult tiny64 (Rplus 1 (\sum_k Rabs (H k j)))) (A i i)) ->
  (forall i, Rle (Rmult tiny64 (Rplus 1 (\sum_k Rabs (y k 0)))) (A i i)) -> Rle (Rmult tiny64 (Rplus 1 (\sum_k Rabs (y k 0)))) (qf W y) ->
  (forall x', solve (wnormal_f dot H W) (wrhs_f dot H W y) = Ret x' -> solved s (wnormal_f dot H W) (wrhs_f dot H W y) x') ->
  weighted_f r dot solve y H W = Ret (xf, Jf) ->
  let v := Rmult (INR N + 1) u64 in
  let c := Rdiv (INR n) l in
  let e := Rplus (Rmult 2 s) (Rmult (Rmult 6 2) v) in
  Rle (Rmult (Rmult 2 (INR n)) e) l ->
  exists x : 'cV[R]_n, best_fit W H y x /\ (forall z, best_fit W H y z -> z = x) /\
    Rle (sqrt (qf W (H *m (xf - x)))) (Rmult (Rmult 4 (Rmult e c)) (sqrt (qf W y))) /\
    (forall i, Rle (Rmult (sqrt (Rmult l (A i i))) (Rabs (Rminus (xf i 0) (x i 0)))) (Rmult (Rmult 4 (Rmult e c)) (sqrt (qf W y)))) /\
    Rle (qf W (y - H *m xf)) (Rplus (qf W (y - H *m x)) (Rmult (Rmult (Rmult 4 (Rmult e c)) (Rmult 4 (Rmult e c))) (qf W y))) /\
    Rle (Rabs (Rminus Jf (Rmult (Rdiv 1 2) (sq (y - H *m xf))))) (Rmult (Rmult 10 v) (Rplus (sq (resid_size H y xf)) tiny64)).
Proof.
  move=> r dot N m n solve H y W l s xf Jf Hr Hd HN Hn Hm L0 L1 S0 Wo W0 A AP T1 T2 T3 HS HF v c e HE.
  apply: (@weighted_bound r dot N m n solve Hr Hd HN Hn Hm H y l s xf Jf L0 L1 S0 W 2 (diag_psd Wo W0) AP _ _ _ HS HF HE).
  - lra.
  - exact: diag_size_normal.
  - exact: diag_size_rhs.
Qed.
Print Assumptions C151_weighted_error.

(** Any weights: [q] compares the sizes of the terms with the results. *)
Theorem C151_any_weights : forall r dot N m n solve (H : 'M[R]_(m, n)) (y : 'cV[R]_m) (W : 'M[R]_m) l s q (xf : 'cV[R]_n) Jf,
  rnd_ok r -> dot_ok dot -> Rle (INR N) 1000000 -> (n <= N)%N -> (m <= N)%N -> Rlt 0 l -> Rle l 1 -> Rle 0 s -> psd W -> Rle 1 q ->
  let A := H^T *m W *m H in
  apart l A ->
  (forall i j, Rle (size_mul (size_mul H^T W) H i j) (Rmult q (Rmult (sqrt (A i i)) (sqrt (A j j))))) ->
  (forall i, Rle (size_mul (size_mul H^T W) y i 0) (Rmult q (Rmult (sqrt (A i i)) (sqrt (qf W y))))) ->
  (forall x', solve (wnormal_f dot H W) (wrhs_f dot H W y) = Ret x' -> solved s (wnormal_f dot H W) (wrhs_f dot H W y) x') ->
  weighted_f r dot solve y H W = Ret (xf, Jf) ->
  let v := Rmult (INR N + 1) u64 in
  let c := Rdiv (INR n) l in
  let e := Rplus (Rmult 2 s) (Rmult (Rmult 6 q) v) in
  Rle (Rmult (Rmult 2 (INR n)) e) l ->
  exists x : 'cV[R]_n, best_fit W H y x /\ (forall z, best_fit W H y z -> z = x) /\
    Rle (sqrt (qf W (H *m (xf - x)))) (Rmult (Rmult 4 (Rmult e c)) (sqrt (qf W y))).
Proof.
  move=> r dot N m n solve H y W l s q xf Jf Hr Hd HN Hn Hm L0 L1 S0 HW Q A AP T1 T2 HS HF v c e HE.
  have [x [X1 [X2 [X3 _]]]] := @weighted_bound r dot N m n solve Hr Hd HN Hn Hm H y l s xf Jf L0 L1 S0 W q HW AP Q T1 T2 HS HF HE.
  by exists x.
Qed.
Print Assumptions C151_any_weights.

(** Without rounding the functions are the model's. *)
Theorem C151_exact_arithmetic : forall (ldlt : solver) m n (solve : 'M[R]_n -> 'cV[R]_n -> outcome 'cV[R]_n) (y : 'cV[R]_m) (H : 'M[R]_(m, n)) (W : 'M[R]_m) (x0 : 'cV[R]_n) J,
  (n <= m)%N -> (forall A b, ldlt (DM A) (DV b) = (x <- solve A b ;; Ret (DV x))) ->
  let dot : dot_fun := fun k a b => \sum_(i < k) a i * b i in
  UnweightedLinearLeastSquares ldlt (DV y) (DM H) (DV x0) J = (p <- unweighted_f id dot solve y H ;; Ret (true, (DV p.1, p.2))) /\
  WeightedLinearLeastSquares ldlt (DV y) (DM H) (DM W) (DV x0) J = (p <- weighted_f id dot solve y H W ;; Ret (true, (DV p.1, p.2))).
Proof. exact exact_ls. Qed.
Print Assumptions C151_exact_arithmetic.

(** With one state the solver is a division, and the assumption on it holds. *)
Theorem C151_division_solves : forall r (A : 'M[R]_1) (b x : 'cV[R]_1), rnd_ok r -> Rlt 0 (A 0 0) -> Rle (Rmult tiny64 (A 0 0)) (Rabs (b 0 0)) ->
  solve1_f r A b = Ret x -> solved (Rmult 3 u64) A b x.
Proof. exact solve1_ok. Qed.
Print Assumptions C151_division_solves.

(** The mean of the readings 1, 1 and 2. *)
Example C151_case : exists (xf : 'cV[R]_1) Jf, unweighted_f rnd64 (@dot_loop rnd64) (solve1_f rnd64) y3 ones3 = Ret (xf, Jf) /\
  Rle (Rabs (Rminus (xf 0 0) (Rdiv 4 3))) (Rdiv 2 100000000000000).
Proof. exact mean_case. Qed.
