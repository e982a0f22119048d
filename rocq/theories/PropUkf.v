(** Theorems C125 and C126: what the unscented prediction gets right. *)
From Coq Require Import Reals Lra.
From mathcomp Require Import all_ssreflect all_algebra.
From Verif Require Import Base BaseMx ModelEigen ModelKalman SpecKalman SpecFilter SpecUkf ProofMx ProofKalman2 ProofUkf.
Set Implicit Arguments.
Unset Strict Implicit.
Unset Printing Implicit Defensive.
Import GRing.Theory.
Local Open Scope ring_scope.
Local Open Scope outcome_scope.

(** C125: with sigma points of mean x and covariance P carried through a linear
    map, the unscented prediction is the linear one. *)
Theorem C125_linear_prediction : forall n (x x1 : 'cV[R]_n) (P P1 Phi Q : 'M[R]_n) (X : 'M[R]_(n, 2 * n + 1)) (W : 'cV[R]_(2 * n + 1)),
  mean (fun i => W i 0) (fun i => col i X) = x -> cov (fun i => W i 0) (fun i => col i X) = P ->
  filterUkfPredict (DV W) (DM (Phi *m X)) (DM Q) (DV x1) (DM P1) = filterPredict (DV x) (DM P) (DM Phi) (DM Q) (DV x1) (DM P1).
Proof. exact @ukf_predict_linear. Qed.
Print Assumptions C125_linear_prediction.
(** The usual points, spread by the columns of a matrix square root, have that
    mean and covariance. *)
Theorem C125_usual_points : forall n (x : 'cV[R]_n) (L P : 'M[R]_n) (w0 w : R),
  w0 + (n + n)%:R * w = 1 -> (w + w) *: (L *m L^T) = P -> forall k (e : (1 + (n + n))%N = k),
  let W := sigma_weights e w0 w in let X := sigma_points e x L in
  weights (fun i => W i 0) /\ mean (fun i => W i 0) (fun i => col i X) = x /\ cov (fun i => W i 0) (fun i => col i X) = P.
Proof. exact @sigma_moments. Qed.
Print Assumptions C125_usual_points.
(** A two-state prediction with the usual points and no centre weight. *)
Example C125_case (x : 'cV[R]_2) : exists W X : _,
  filterUkfPredict (DV (W : 'cV[R]_(2 * 2 + 1))) (DM ((IZR 3)%:M *m (X : 'M[R]_(2, 2 * 2 + 1)))) (DM (1%:M : 'M[R]_2)) (DV x) (DM (0 : 'M[R]_2)) =
  filterPredict (DV x) (DM (2%:R *: (1%:M *m (1%:M : 'M[R]_2)^T) : 'M[R]_2)) (DM ((IZR 3)%:M : 'M[R]_2)) (DM (1%:M : 'M[R]_2)) (DV x) (DM (0 : 'M[R]_2)).
Proof.
  have [] := @C125_usual_points 2 x 1%:M (2%:R *: (1%:M *m 1%:M^T)) (- (3%:R)) 1 _ _ _ (erefl : (1 + (2 + 2) = 2 * 2 + 1)%N) => //.
  - rewrite mulr1 natrD !mulrS !addr0. toR. lra.
  - move=> _ [A B]. do 2 eexists. exact: (C125_linear_prediction _ _ _ _ A B).
Qed.

(** C126: through a quadratic map the predicted mean is the exact mean of every
    ensemble with the same mean and covariance. *)
Theorem C126_quadratic_mean : forall n (W : 'cV[R]_(2 * n + 1)) (X : 'M[R]_(n, 2 * n + 1)) (x x1 x' : 'cV[R]_n) (P Q P1 P' : 'M[R]_n) c B A,
  weights (fun i => W i 0) -> mean (fun i => W i 0) (fun i => col i X) = x -> cov (fun i => W i 0) (fun i => col i X) = P ->
  filterUkfPredict (DV W) (DM (\matrix_(k, i) quadratic c B A (col i X) k 0)) (DM Q) (DV x1) (DM P1) = Ret (true, (DV x', DM P')) ->
  x' = quadratic c B A x + \col_k \tr (A k *m P).
Proof. exact @ukf_quadratic. Qed.
Print Assumptions C126_quadratic_mean.
Theorem C126_every_ensemble : forall (I : finType) n (p : I -> R) (X : I -> 'cV[R]_n) c B A, weights p ->
  mean p (fun i => quadratic c B A (X i)) = quadratic c B A (mean p X) + \col_k \tr (A k *m cov p X).
Proof. exact @mean_quadratic. Qed.
Print Assumptions C126_every_ensemble.
(** The predicted covariance is not determined by the mean and covariance of the
    points: through the same square map, two sets of points of mean zero and
    variance one yield variances zero and three. *)
Theorem C126_covariance_refuted : exists (W W' : 'cV[R]_(2 * 1 + 1)) (X X' : 'M[R]_(1, 2 * 1 + 1)) (x : 'cV[R]_1) (P : 'M[R]_1) (y : 'cV[R]_1) (S S' : 'M[R]_1) c B A,
  (forall i, Rle 0 (W i 0) /\ Rle 0 (W' i 0)) /\
  weights (fun i => W i 0) /\ mean (fun i => W i 0) (fun i => col i X) = x /\ cov (fun i => W i 0) (fun i => col i X) = P /\
  weights (fun i => W' i 0) /\ mean (fun i => W' i 0) (fun i => col i X') = x /\ cov (fun i => W' i 0) (fun i => col i X') = P /\
  filterUkfPredict (DV W) (DM (\matrix_(k, i) quadratic c B A (col i X) k 0)) (DM (0 : 'M[R]_1)) (DV (0 : 'cV[R]_1)) (DM (0 : 'M[R]_1)) = Ret (true, (DV y, DM S)) /\
  filterUkfPredict (DV W') (DM (\matrix_(k, i) quadratic c B A (col i X') k 0)) (DM (0 : 'M[R]_1)) (DV (0 : 'cV[R]_1)) (DM (0 : 'M[R]_1)) = Ret (true, (DV y, DM S')) /\
  S 0 0 = 0 /\ S' 0 0 = IZR 3.
Proof. exact ukf_scatter. Qed.
Print Assumptions C126_covariance_refuted.
Example C126_case : exists (W : 'cV[R]_(2 * 1 + 1)) (X : 'M[R]_(1, 2 * 1 + 1)),
  weights (fun i => W i 0) /\ mean (fun i => W i 0) (fun i => col i X) = 0 /\ cov (fun i => W i 0) (fun i => col i X) = 1%:M.
Proof. have [A [B [C _]]] := @three (Rdiv 3 4) (Rdiv 1 8) (IZR 2) ltac:(toR; lra) ltac:(toR; lra). do 2 eexists. split; [exact A|split; [exact B|exact C]]. Qed.
