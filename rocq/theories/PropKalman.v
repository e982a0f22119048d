(** Claims about the Kalman and unscented filters (src/filter/KalmanFilter.cpp).
    Matrices are over the reals and of any size: [DM A] and [DV x] are Eigen
    objects of run-time size holding A and x. *)
From Coq Require Import Reals Lra Permutation.
From mathcomp Require Import all_ssreflect all_algebra.
From Verif Require Import Base BaseMx ModelEigen ModelKalman SpecKalman SpecFilter ProofMx ProofKalman ProofKalman2 ProofKalman3 ProofKalman4.
Set Implicit Arguments.
Unset Strict Implicit.
Unset Printing Implicit Defensive.
Import GRing.Theory.
Local Open Scope ring_scope.
Local Open Scope outcome_scope.

(** A two-state filter that doubles its state, and one that observes it. *)
Example predict_case (v : 'cV[R]_2) :
  filterPredict (DV v) (DM (1%:M : 'M[R]_2)) (DM ((IZR 2)%:M : 'M[R]_2)) (DM (1%:M : 'M[R]_2)) (DV v) (DM (0 : 'M[R]_2)) =
  Ret (true, (DV (IZR 2 *: v), DM ((IZR 5)%:M : 'M[R]_2))).
Proof.
  rewrite predict_ok. apply: RetE; first by rewrite mul_scalar_mx.
  rewrite mulmx1 tr_scalar_mx -scalar_mxM -raddfD /=. congr (_%:M). toR. lra.
Qed.
Example update_case (z : 'cV[R]_2) :
  filterUpdate (DV (0 : 'cV[R]_2)) (DM (1%:M : 'M[R]_2)) (DV z) (DM (1%:M : 'M[R]_2)) (DM (1%:M : 'M[R]_2))
    (DV (0 : 'cV[R]_2)) (DM (0 : 'M[R]_2)) =
  Ret (true, (DV (Rdiv 1 2 *: z), DM ((Rdiv 1 2)%:M : 'M[R]_2))).
Proof.
  have [x' [P' E]] := update_finite (0 : 'cV[R]_2) (0 : 'cV[R]_2) z (0 : 'M[R]_2) 1%:M (pd_psd (pd1 2)) (pd1 2).
  have [K [EK Ex EP]] := update_short E. rewrite E.
  have K2 : K = (Rdiv 1 2)%:M.
  { move: EK. rewrite !mul1mx trmx1 -raddfD /= => EK.
    have -> : K = K *m ((1 + 1 : R)%:M *m (Rdiv 1 2)%:M).
    { rewrite -scalar_mxM (_ : (1 + 1 : R) * Rdiv 1 2 = 1) ?mulmx1 //. toR. lra. }
    by rewrite mulmxA EK mul1mx. }
  apply: RetE.
  - by rewrite Ex K2 mulmx0 subr0 add0r mul_scalar_mx.
  - rewrite EP K2 !mulmx1 -raddfB /=. congr (_%:M). toR. lra.
Qed.

(** C43 *)
Theorem C43_predict : forall xk Pk Phik Qk x1 P1,
  (predict_sizes xk Pk Phik Qk x1 P1 -> exists r, filterPredict xk Pk Phik Qk x1 P1 = Ret (true, r)) /\
  (~ predict_sizes xk Pk Phik Qk x1 P1 -> filterPredict xk Pk Phik Qk x1 P1 = Ret (false, (x1, P1))).
Proof. exact (fun _ _ _ _ _ _ => conj (@predict_accepts _ _ _ _ _ _) (@predict_rejects _ _ _ _ _ _)). Qed.
Print Assumptions C43_predict.
(** A singular innovation covariance gives [NonFinite]: the code returns true
    with infinities, see C49. *)
Theorem C43_update : forall xk Pk zk H Rk x1 P1,
  (update_sizes xk Pk zk H Rk x1 P1 ->
     (exists r, filterUpdate xk Pk zk H Rk x1 P1 = Ret (true, r)) \/ filterUpdate xk Pk zk H Rk x1 P1 = NonFinite) /\
  (~ update_sizes xk Pk zk H Rk x1 P1 -> filterUpdate xk Pk zk H Rk x1 P1 = Ret (false, (x1, P1))).
Proof. exact (fun _ _ _ _ _ _ _ => conj (@update_accepts _ _ _ _ _ _ _) (@update_rejects _ _ _ _ _ _ _)). Qed.
Print Assumptions C43_update.
Theorem C43_ukf_predict : forall Wi yi Qk x1 P1,
  (ukf_predict_sizes Wi yi Qk x1 P1 -> exists r, filterUkfPredict Wi yi Qk x1 P1 = Ret (true, r)) /\
  (~ ukf_predict_sizes Wi yi Qk x1 P1 -> filterUkfPredict Wi yi Qk x1 P1 = Ret (false, (x1, P1))).
Proof. exact (fun _ _ _ _ _ => conj (@ukf_predict_accepts _ _ _ _ _) (@ukf_predict_rejects _ _ _ _ _)). Qed.
Print Assumptions C43_ukf_predict.
Theorem C43_ukf_update : forall xk Pk yi Wi zi zk Rk x1 P1,
  (ukf_update_sizes xk Pk yi Wi zi zk Rk x1 P1 ->
     (exists r, filterUkfUpdate xk Pk yi Wi zi zk Rk x1 P1 = Ret (true, r)) \/
     filterUkfUpdate xk Pk yi Wi zi zk Rk x1 P1 = NonFinite) /\
  (~ ukf_update_sizes xk Pk yi Wi zi zk Rk x1 P1 ->
     filterUkfUpdate xk Pk yi Wi zi zk Rk x1 P1 = Ret (false, (x1, P1))).
Proof. exact (fun _ _ _ _ _ _ _ _ _ => conj (@ukf_update_accepts _ _ _ _ _ _ _ _ _) (@ukf_update_rejects _ _ _ _ _ _ _ _ _)). Qed.
Print Assumptions C43_ukf_update.
Example C43_case : filterPredict (DV (0 : 'cV[R]_2)) (DM (0 : 'M[R]_3)) (DM (0 : 'M[R]_2)) (DM (0 : 'M[R]_2))
    (DV (0 : 'cV[R]_5)) (DM (0 : 'M[R]_2)) = Ret (false, (DV (0 : 'cV[R]_5), DM (0 : 'M[R]_2))).
Proof. apply: (proj2 (C43_predict _ _ _ _ _ _)). by case=> [[]]. Qed.

(** C44: the prediction of an ensemble's mean and covariance is the mean and
    covariance of the predicted ensemble, process noise being independent. *)
Theorem C44_ensemble : forall (I J : finType) (p : I -> R) (q : J -> R) n (X : I -> 'cV[R]_n) (V : J -> 'cV[R]_n)
    (Phi P1 : 'M[R]_n) (x1 : 'cV[R]_n),
  weights p -> weights q -> mean q V = 0 ->
  let Y : I * J -> 'cV[R]_n := fun k => Phi *m X k.1 + V k.2 in
  filterPredict (DV (mean p X)) (DM (cov p X)) (DM Phi) (DM (cov q V)) (DV x1) (DM P1) =
  Ret (true, (DV (mean (pprod p q) Y), DM (cov (pprod p q) Y))).
Proof. exact @predict_ensemble. Qed.
Print Assumptions C44_ensemble.
Theorem C44_values : forall n (x x1 : 'cV[R]_n) (P Phi Q P1 : 'M[R]_n),
  filterPredict (DV x) (DM P) (DM Phi) (DM Q) (DV x1) (DM P1) =
  Ret (true, (DV (Phi *m x), DM (Phi *m P *m Phi^T + Q))).
Proof. exact @predict_ok. Qed.
Print Assumptions C44_values.
Theorem C44_covariance_valid : forall n (x x1 x' : 'cV[R]_n) (P Phi Q P1 P' : 'M[R]_n),
  filterPredict (DV x) (DM P) (DM Phi) (DM Q) (DV x1) (DM P1) = Ret (true, (DV x', DM P')) ->
  psd P -> psd Q -> psd P' /\ loewner Q P'.
Proof. exact @predict_psd. Qed.
Print Assumptions C44_covariance_valid.
Example C44_case : psd ((IZR 5)%:M : 'M[R]_2).
Proof. exact: (proj1 (C44_covariance_valid (predict_case 0) (pd_psd (pd1 2)) (pd_psd (pd1 2)))). Qed.

(** C45 *)
Theorem C45_covariance_valid : forall n m (x x1 x' : 'cV[R]_n) (z : 'cV[R]_m) (P P1 P' : 'M[R]_n) (H : 'M[R]_(m, n)) (Rk : 'M[R]_m),
  filterUpdate (DV x) (DM P) (DV z) (DM H) (DM Rk) (DV x1) (DM P1) = Ret (true, (DV x', DM P')) ->
  psd P -> psd Rk -> psd P'.
Proof. exact @update_psd. Qed.
Print Assumptions C45_covariance_valid.
Theorem C45_short_form : forall n m (x x1 x' : 'cV[R]_n) (z : 'cV[R]_m) (P P1 P' : 'M[R]_n) (H : 'M[R]_(m, n)) (Rk : 'M[R]_m),
  filterUpdate (DV x) (DM P) (DV z) (DM H) (DM Rk) (DV x1) (DM P1) = Ret (true, (DV x', DM P')) ->
  exists K : 'M[R]_(n, m), [/\ K *m (H *m P *m H^T + Rk) = P *m H^T, x' = x + K *m (z - H *m x) & P' = (1%:M - K *m H) *m P].
Proof. exact @update_short. Qed.
Print Assumptions C45_short_form.
Example C45_case : psd ((Rdiv 1 2)%:M : 'M[R]_2).
Proof. exact: (C45_covariance_valid (update_case 0) (pd_psd (pd1 2)) (pd_psd (pd1 2))). Qed.

(** C46 *)
Theorem C46_optimal : forall n m (x x1 x' : 'cV[R]_n) (z : 'cV[R]_m) (P P1 P' : 'M[R]_n) (H : 'M[R]_(m, n)) (Rk : 'M[R]_m),
  filterUpdate (DV x) (DM P) (DV z) (DM H) (DM Rk) (DV x1) (DM P1) = Ret (true, (DV x', DM P')) ->
  forall L : 'M[R]_(n, m), psd P -> psd Rk ->
  loewner P' ((1%:M - L *m H) *m P *m (1%:M - L *m H)^T + L *m Rk *m L^T).
Proof. exact @update_optimal. Qed.
Print Assumptions C46_optimal.
Theorem C46_shrinks : forall n m (x x1 x' : 'cV[R]_n) (z : 'cV[R]_m) (P P1 P' : 'M[R]_n) (H : 'M[R]_(m, n)) (Rk : 'M[R]_m),
  filterUpdate (DV x) (DM P) (DV z) (DM H) (DM Rk) (DV x1) (DM P1) = Ret (true, (DV x', DM P')) ->
  psd P -> psd Rk -> loewner P' P.
Proof. exact @update_shrinks. Qed.
Print Assumptions C46_shrinks.
(** The returned covariance is that of the actual error. *)
Theorem C46_actual_error : forall (I J : finType) (p : I -> R) (q : J -> R) n m (x x1 : 'cV[R]_n)
    (X : I -> 'cV[R]_n) (V : J -> 'cV[R]_m) (H : 'M[R]_(m, n)) (P1 : 'M[R]_n),
  weights p -> weights q -> mean p X = x -> mean q V = 0 -> H *m cov p X *m H^T + cov q V \in unitmx ->
  exists (est : I * J -> 'cV[R]_n) (P' : 'M[R]_n),
    (forall k, filterUpdate (DV x) (DM (cov p X)) (DV (H *m X k.1 + V k.2)) (DM H) (DM (cov q V)) (DV x1) (DM P1)
               = Ret (true, (DV (est k), DM P'))) /\
    mean (pprod p q) (fun k => X k.1 - est k) = 0 /\
    cov (pprod p q) (fun k => X k.1 - est k) = P'.
Proof. exact @update_actual_error. Qed.
Print Assumptions C46_actual_error.
Example C46_case : loewner ((Rdiv 1 2)%:M : 'M[R]_2) 1%:M.
Proof. exact: (C46_shrinks (update_case 0) (pd_psd (pd1 2)) (pd_psd (pd1 2))). Qed.

(** C47 *)
Theorem C47_information : forall n m (x x1 x' : 'cV[R]_n) (z : 'cV[R]_m) (P P1 P' : 'M[R]_n) (H : 'M[R]_(m, n)) (Rk : 'M[R]_m),
  P \in unitmx -> Rk \in unitmx ->
  filterUpdate (DV x) (DM P) (DV z) (DM H) (DM Rk) (DV x1) (DM P1) = Ret (true, (DV x', DM P')) ->
  [/\ P' \in unitmx, invmx P' = invmx P + H^T *m invmx Rk *m H
    & invmx P' *m x' = invmx P *m x + H^T *m invmx Rk *m z].
Proof. exact @update_info. Qed.
Print Assumptions C47_information.
Example C47_case (z : 'cV[R]_2) : invmx ((Rdiv 1 2)%:M : 'M[R]_2) = 1%:M + 1%:M.
Proof.
  have [_ -> _] := C47_information (unitmx1 _ _) (unitmx1 _ _) (update_case z). by rewrite invmx1 trmx1 !mulmx1.
Qed.

(** C48 *)
Theorem C48_stacked : forall n m1 m2 (x x1 x2 : 'cV[R]_n) (P P1 P2 : 'M[R]_n) (z1 : 'cV[R]_m1) (z2 : 'cV[R]_m2)
  (H1 : 'M[R]_(m1, n)) (H2 : 'M[R]_(m2, n)) (R1 : 'M[R]_m1) (R2 : 'M[R]_m2),
  psd P -> psd R1 -> psd R2 ->
  (r <- filterUpdate (DV x) (DM P) (DV z1) (DM H1) (DM R1) (DV x1) (DM P1) ;;
   filterUpdate r.2.1 r.2.2 (DV z2) (DM H2) (DM R2) (DV x2) (DM P2)) =
  filterUpdate (DV x) (DM P) (DV (col_mx z1 z2)) (DM (col_mx H1 H2)) (DM (block_mx R1 0 0 R2)) (DV x2) (DM P2).
Proof. exact @sequential_stacked. Qed.
Print Assumptions C48_stacked.
Theorem C48_either_order : forall n m1 m2 (x x1 x2 x1' : 'cV[R]_n) (P P1 P2 P1' : 'M[R]_n) (z1 : 'cV[R]_m1) (z2 : 'cV[R]_m2)
  (H1 : 'M[R]_(m1, n)) (H2 : 'M[R]_(m2, n)) (R1 : 'M[R]_m1) (R2 : 'M[R]_m2),
  psd P -> psd R1 -> psd R2 ->
  (r <- filterUpdate (DV x) (DM P) (DV z1) (DM H1) (DM R1) (DV x1) (DM P1) ;;
   filterUpdate r.2.1 r.2.2 (DV z2) (DM H2) (DM R2) (DV x2) (DM P2)) =
  (r <- filterUpdate (DV x) (DM P) (DV z2) (DM H2) (DM R2) (DV x1') (DM P1') ;;
   filterUpdate r.2.1 r.2.2 (DV z1) (DM H1) (DM R1) (DV x2) (DM P2)).
Proof. exact @sequential_either. Qed.
Print Assumptions C48_either_order.
Example C48_case (z1 z2 : 'cV[R]_2) (H2 : 'M[R]_2) : exists x' P',
  filterUpdate (DV (Rdiv 1 2 *: z1)) (DM ((Rdiv 1 2)%:M : 'M[R]_2)) (DV z2) (DM H2) (DM (1%:M : 'M[R]_2)) (DV (0 : 'cV[R]_2)) (DM (0 : 'M[R]_2)) =
    Ret (true, (DV (x' : 'cV[R]_2), DM (P' : 'M[R]_2))) /\
  filterUpdate (DV (0 : 'cV[R]_2)) (DM (1%:M : 'M[R]_2)) (DV (col_mx z1 z2)) (DM (col_mx 1%:M H2)) (DM (block_mx 1%:M 0 0 1%:M : 'M[R]_(2 + 2)))
    (DV (0 : 'cV[R]_2)) (DM (0 : 'M[R]_2)) = Ret (true, (DV x', DM P')).
Proof.
  have [x' [P' E]] := update_finite (Rdiv 1 2 *: z1) (0 : 'cV[R]_2) z2 (0 : 'M[R]_2) H2 C45_case (pd1 2).
  exists x', P'. split=> //.
  have I2 := pd_psd (pd1 2).
  have := C48_stacked 0 0 0 0 0 z1 z2 1%:M H2 I2 I2 I2. rewrite update_case /= => <-. exact: E.
Qed.

(** C49: a true return does not mean a finite estimate. *)
Theorem C49_finite_refuted : forall n m (x x1 : 'cV[R]_n) (z : 'cV[R]_m.+1) (P1 : 'M[R]_n) (H : 'M[R]_(m.+1, n)),
  filterUpdate (DV x) (DM (0 : 'M[R]_n)) (DV z) (DM H) (DM (0 : 'M[R]_m.+1)) (DV x1) (DM P1) = NonFinite.
Proof. exact @update_singular. Qed.
Print Assumptions C49_finite_refuted.
Theorem C49_finite_iff : forall n m (x x1 : 'cV[R]_n) (z : 'cV[R]_m) (P P1 : 'M[R]_n) (H : 'M[R]_(m, n)) (Rk : 'M[R]_m),
  (exists x' P', filterUpdate (DV x) (DM P) (DV z) (DM H) (DM Rk) (DV x1) (DM P1) = Ret (true, (DV (x' : 'cV[R]_n), DM (P' : 'M[R]_n))))
  <-> H *m P *m H^T + Rk \in unitmx.
Proof. exact @update_finite_iff. Qed.
Print Assumptions C49_finite_iff.
Theorem C49_finite_if_noise_pd : forall n m (x x1 : 'cV[R]_n) (z : 'cV[R]_m) (P P1 : 'M[R]_n) (H : 'M[R]_(m, n)) (Rk : 'M[R]_m),
  psd P -> pd Rk ->
  exists x' P', filterUpdate (DV x) (DM P) (DV z) (DM H) (DM Rk) (DV x1) (DM P1) = Ret (true, (DV (x' : 'cV[R]_n), DM (P' : 'M[R]_n))).
Proof. exact @update_finite. Qed.
Print Assumptions C49_finite_if_noise_pd.
Example C49_case (z : 'cV[R]_2) (H : 'M[R]_(2, 3)) : exists x' P',
  filterUpdate (DV (0 : 'cV[R]_3)) (DM (0 : 'M[R]_3)) (DV z) (DM H) (DM (1%:M : 'M[R]_2)) (DV (0 : 'cV[R]_3)) (DM (0 : 'M[R]_3)) =
  Ret (true, (DV (x' : 'cV[R]_3), DM (P' : 'M[R]_3))).
Proof. exact: C49_finite_if_noise_pd (psd0 3) (pd1 2). Qed.

(** C50 *)
Theorem C50_histories : forall n (h : seq (op n)) (x : 'cV[R]_n) (P : 'M[R]_n), all_valid h -> psd P ->
  exists (x' : 'cV[R]_n) (P' : 'M[R]_n), run h (DV x) (DM P) = Ret (true, (DV x', DM P')) /\ psd P'.
Proof. exact @run_valid. Qed.
Print Assumptions C50_histories.
Example C50_case (Phi H : 'M[R]_2) (z : 'cV[R]_2) : exists (x' : 'cV[R]_2) (P' : 'M[R]_2),
  run [:: Update z H 1%:M; Predict Phi 1%:M; Update z H 1%:M] (DV (0 : 'cV[R]_2)) (DM (0 : 'M[R]_2)) = Ret (true, (DV x', DM P')) /\ psd P'.
Proof. apply: C50_histories (psd0 2). have D := pd1 2. have D' := pd_psd D. by []. Qed.

(** C51 *)
Theorem C51_mean_and_scatter : forall n (W : 'cV[R]_(2 * n + 1)) (y : 'M[R]_(n, 2 * n + 1)) (Q P1 : 'M[R]_n) (x1 : 'cV[R]_n),
  filterUkfPredict (DV W) (DM y) (DM Q) (DV x1) (DM P1) =
  Ret (true, (DV (mean (fun i => W i 0) (fun i => col i y)), DM (Q + cov (fun i => W i 0) (fun i => col i y)))).
Proof. exact @ukf_predict_mean. Qed.
Print Assumptions C51_mean_and_scatter.
Theorem C51_covariance_valid : forall n (W : 'cV[R]_(2 * n + 1)) (y : 'M[R]_(n, 2 * n + 1)) (Q P1 P' : 'M[R]_n) (x1 x' : 'cV[R]_n),
  filterUkfPredict (DV W) (DM y) (DM Q) (DV x1) (DM P1) = Ret (true, (DV x', DM P')) ->
  (symmetric Q -> symmetric P') /\ ((forall i, Rle 0 (W i 0)) -> psd Q -> psd P' /\ loewner Q P').
Proof. exact @ukf_predict_sym. Qed.
Print Assumptions C51_covariance_valid.
(** Weights that sum to one are not enough. *)
Theorem C51_negative_weight_refuted : exists (W : 'cV[R]_(2 * 1 + 1)) (y : 'M[R]_(1, 2 * 1 + 1)) (x' : 'cV[R]_1) (P' : 'M[R]_1),
  \sum_i W i 0 = 1 /\
  filterUkfPredict (DV W) (DM y) (DM (0 : 'M[R]_1)) (DV (0 : 'cV[R]_1)) (DM (0 : 'M[R]_1)) = Ret (true, (DV x', DM P')) /\
  ~ psd P'.
Proof. exact ukf_indefinite. Qed.
Print Assumptions C51_negative_weight_refuted.
Example C51_case (y : 'M[R]_(2, 2 * 2 + 1)) : psd (1%:M + cov (fun i => (const_mx (Rdiv 1 5) : 'cV[R]_(2 * 2 + 1)) i 0) (fun i => col i y)).
Proof.
  apply: (proj1 (proj2 (C51_covariance_valid (C51_mean_and_scatter (const_mx (Rdiv 1 5)) y 1%:M 0 0)) _ (pd_psd (pd1 2)))) => i.
  rewrite mxE. lra.
Qed.

(** C52 *)
Theorem C52_linear : forall n m (x x1 : 'cV[R]_n) (P P1 : 'M[R]_n) (y : 'M[R]_(n, 2 * n + 1)) (W : 'cV[R]_(2 * n + 1))
    (H : 'M[R]_(m, n)) (z : 'cV[R]_m) (Rk : 'M[R]_m),
  mean (fun i => W i 0) (fun i => col i y) = x -> cov (fun i => W i 0) (fun i => col i y) = P -> symmetric Rk ->
  filterUkfUpdate (DV x) (DM P) (DM y) (DV W) (DM (H *m y)) (DV z) (DM Rk) (DV x1) (DM P1) =
  filterUpdate (DV x) (DM P) (DV z) (DM H) (DM Rk) (DV x1) (DM P1).
Proof. exact @ukf_update_linear. Qed.
Print Assumptions C52_linear.
Theorem C52_covariance_valid : forall n m (x x1 x' : 'cV[R]_n) (P P1 P' : 'M[R]_n) (y : 'M[R]_(n, 2 * n + 1)) (W : 'cV[R]_(2 * n + 1))
    (zi : 'M[R]_(m, 2 * n + 1)) (z : 'cV[R]_m) (Rk : 'M[R]_m),
  (forall i, Rle 0 (W i 0)) -> psd Rk -> symmetric P ->
  loewner (\sum_i W i 0 *: ((col i y - x) *m (col i y - x)^T)) P ->
  filterUkfUpdate (DV x) (DM P) (DM y) (DV W) (DM zi) (DV z) (DM Rk) (DV x1) (DM P1) = Ret (true, (DV x', DM P')) ->
  psd P' /\ loewner P' P.
Proof. exact @ukf_update_psd. Qed.
Print Assumptions C52_covariance_valid.
Theorem C52_finite : forall n m (x x1 : 'cV[R]_n) (P P1 : 'M[R]_n) (y : 'M[R]_(n, 2 * n + 1)) (W : 'cV[R]_(2 * n + 1))
    (zi : 'M[R]_(m, 2 * n + 1)) (z : 'cV[R]_m) (Rk : 'M[R]_m),
  (forall i, Rle 0 (W i 0)) -> pd Rk ->
  exists x' P', filterUkfUpdate (DV x) (DM P) (DM y) (DV W) (DM zi) (DV z) (DM Rk) (DV x1) (DM P1) =
    Ret (true, (DV (x' : 'cV[R]_n), DM (P' : 'M[R]_n))).
Proof. exact @ukf_update_finite. Qed.
Print Assumptions C52_finite.
(** Any sigma points, about any state, with a nonlinear measurement. *)
Example C52_case (x : 'cV[R]_2) (y : 'M[R]_(2, 2 * 2 + 1)) (zi : 'M[R]_(3, 2 * 2 + 1)) (z : 'cV[R]_3) :
  let W : 'cV[R]_(2 * 2 + 1) := const_mx (Rdiv 1 5) in
  let P := \sum_i W i 0 *: ((col i y - x) *m (col i y - x)^T) in
  exists x' P', filterUkfUpdate (DV x) (DM P) (DM y) (DV W) (DM zi) (DV z) (DM (1%:M : 'M[R]_3)) (DV (0 : 'cV[R]_2)) (DM (0 : 'M[R]_2)) =
    Ret (true, (DV (x' : 'cV[R]_2), DM (P' : 'M[R]_2))) /\ psd P' /\ loewner P' P.
Proof.
  move=> W P. have N i : Rle 0 (W i 0) by rewrite mxE; lra.
  have [x' [P' E]] := C52_finite x 0 P 0 y zi z N (pd1 3). exists x', P'. split=> //.
  apply: (C52_covariance_valid N (pd_psd (pd1 3)) _ _ E); last exact: loewner_refl.
  by case: (wscat_psd y x N).
Qed.

(** C53: a call on any addresses writes the result of the call on the values;
    nothing is assumed about which addresses coincide. *)
Theorem C53_predict_in_place : forall xk Pk Phik Qk x1 P1 s,
  filterPredict_at xk Pk Phik Qk x1 P1 s =
  (r <- filterPredict (vecs s xk) (mats s Pk) (mats s Phik) (mats s Qk) (vecs s x1) (mats s P1) ;;
   Ret (r.1, setm (setv s x1 r.2.1) P1 r.2.2)).
Proof. exact predict_alias. Qed.
Print Assumptions C53_predict_in_place.
Theorem C53_update_in_place : forall xk Pk zk H Rk x1 P1 s,
  filterUpdate_at xk Pk zk H Rk x1 P1 s =
  (r <- filterUpdate (vecs s xk) (mats s Pk) (vecs s zk) (mats s H) (mats s Rk) (vecs s x1) (mats s P1) ;;
   Ret (r.1, setm (setv s x1 r.2.1) P1 r.2.2)).
Proof. exact update_alias. Qed.
Print Assumptions C53_update_in_place.
Theorem C53_ukf_predict_in_place : forall Wi yi Qk x1 P1 s,
  filterUkfPredict_at Wi yi Qk x1 P1 s =
  (r <- filterUkfPredict (vecs s Wi) (mats s yi) (mats s Qk) (vecs s x1) (mats s P1) ;;
   Ret (r.1, setm (setv s x1 r.2.1) P1 r.2.2)).
Proof. exact ukfPredict_alias. Qed.
Print Assumptions C53_ukf_predict_in_place.
Theorem C53_ukf_update_in_place : forall xk Pk yi Wi zi zk Rk x1 P1 s,
  filterUkfUpdate_at xk Pk yi Wi zi zk Rk x1 P1 s =
  (r <- filterUkfUpdate (vecs s xk) (mats s Pk) (mats s yi) (vecs s Wi) (mats s zi) (vecs s zk) (mats s Rk)
          (vecs s x1) (mats s P1) ;;
   Ret (r.1, setm (setv s x1 r.2.1) P1 r.2.2)).
Proof. exact ukfUpdate_alias. Qed.
Print Assumptions C53_ukf_update_in_place.
(** What the outputs held before the call does not matter. *)
Theorem C53_outputs_not_read : forall n m (x x1 x2 : 'cV[R]_n) (P P1 P2 Phi Q : 'M[R]_n) (z : 'cV[R]_m) (H : 'M[R]_(m, n)) (Rk : 'M[R]_m)
    (y : 'M[R]_(n, 2 * n + 1)) (W : 'cV[R]_(2 * n + 1)) (zi : 'M[R]_(m, 2 * n + 1)),
  filterPredict (DV x) (DM P) (DM Phi) (DM Q) (DV x1) (DM P1) = filterPredict (DV x) (DM P) (DM Phi) (DM Q) (DV x2) (DM P2) /\
  filterUpdate (DV x) (DM P) (DV z) (DM H) (DM Rk) (DV x1) (DM P1) = filterUpdate (DV x) (DM P) (DV z) (DM H) (DM Rk) (DV x2) (DM P2) /\
  filterUkfPredict (DV W) (DM y) (DM Q) (DV x1) (DM P1) = filterUkfPredict (DV W) (DM y) (DM Q) (DV x2) (DM P2) /\
  filterUkfUpdate (DV x) (DM P) (DM y) (DV W) (DM zi) (DV z) (DM Rk) (DV x1) (DM P1) =
  filterUkfUpdate (DV x) (DM P) (DM y) (DV W) (DM zi) (DV z) (DM Rk) (DV x2) (DM P2).
Proof. move=> *. by rewrite !predict_ok !update_ok !ukfPredict_ok !ukfUpdate_ok. Qed.
Print Assumptions C53_outputs_not_read.
Example C53_case (v : 'cV[R]_2) : let s := fresh [:: DV v] [:: DM (1%:M : 'M[R]_2); DM ((IZR 2)%:M : 'M[R]_2)] in
  filterPredict_at 0 0 1 0 0 0 s = Ret (true, setm (setv s 0 (DV (IZR 2 *: v))) 0 (DM ((IZR 5)%:M : 'M[R]_2))).
Proof.
  move=> s. rewrite C53_predict_in_place.
  rewrite -[filterPredict _ _ _ _ _ _]/(filterPredict (DV v) (DM (1%:M : 'M[R]_2)) (DM ((IZR 2)%:M : 'M[R]_2))
    (DM (1%:M : 'M[R]_2)) (DV v) (DM (1%:M : 'M[R]_2))) predict_ok. cbn [bind fst snd].
  have -> : (IZR 2)%:M *m (1%:M : 'M[R]_2) *m (IZR 2)%:M^T + 1%:M = (IZR 5)%:M.
  { rewrite mulmx1 tr_scalar_mx -scalar_mxM -raddfD /=. congr (_%:M). toR. lra. }
  by rewrite mul_scalar_mx.
Qed.

(** C54 *)
Theorem C54_noise_free : forall n m (x x1 x' : 'cV[R]_n) (z : 'cV[R]_m) (P P1 P' : 'M[R]_n) (H : 'M[R]_(m, n)),
  filterUpdate (DV x) (DM P) (DV z) (DM H) (DM (0 : 'M[R]_m)) (DV x1) (DM P1) = Ret (true, (DV x', DM P')) ->
  H *m x' = z /\ H *m P' = 0.
Proof. exact @update_exact. Qed.
Print Assumptions C54_noise_free.
Example C54_case (x z : 'cV[R]_2) : exists x' P',
  filterUpdate (DV x) (DM (1%:M : 'M[R]_2)) (DV z) (DM (1%:M : 'M[R]_2)) (DM (0 : 'M[R]_2)) (DV x) (DM (0 : 'M[R]_2)) =
  Ret (true, (DV x', DM (P' : 'M[R]_2))) /\ x' = z.
Proof.
  have U : (1%:M : 'M[R]_2) *m 1%:M *m 1%:M^T + 0 \in unitmx by rewrite trmx1 !mulmx1 addr0 unitmx1.
  have [x' [P' E]] := proj2 (C49_finite_iff x x z _ 0 _ _) U. exists x', P'. split; first exact: E.
  have [F _] := C54_noise_free E. by rewrite mul1mx in F.
Qed.

(** C82 *)
Theorem C82_predict_coordinates : forall n n' (T : 'M[R]_(n', n)) (T' : 'M[R]_(n, n')), T' *m T = 1%:M ->
  forall (x x1 : 'cV[R]_n) (P Phi Q P1 : 'M[R]_n) (y1 : 'cV[R]_n') (V1 : 'M[R]_n') x' P',
  filterPredict (DV x) (DM P) (DM Phi) (DM Q) (DV x1) (DM P1) = Ret (true, (DV (x' : 'cV[R]_n), DM (P' : 'M[R]_n))) ->
  filterPredict (DV (T *m x)) (DM (T *m P *m T^T)) (DM (T *m Phi *m T')) (DM (T *m Q *m T^T)) (DV y1) (DM V1) =
  Ret (true, (DV (T *m x'), DM (T *m P' *m T^T))).
Proof. exact @predict_coord. Qed.
Print Assumptions C82_predict_coordinates.
Theorem C82_update_coordinates : forall n m n' m' (T : 'M[R]_(n', n)) (T' : 'M[R]_(n, n')) (U : 'M[R]_(m', m)) (U' : 'M[R]_(m, m')),
  T *m T' = 1%:M -> T' *m T = 1%:M -> U *m U' = 1%:M -> U' *m U = 1%:M ->
  forall (x x1 x' : 'cV[R]_n) (z : 'cV[R]_m) (P P1 P' : 'M[R]_n) (H : 'M[R]_(m, n)) (Rk : 'M[R]_m) (y1 : 'cV[R]_n') (V1 : 'M[R]_n'),
  filterUpdate (DV x) (DM P) (DV z) (DM H) (DM Rk) (DV x1) (DM P1) = Ret (true, (DV x', DM P')) ->
  filterUpdate (DV (T *m x)) (DM (T *m P *m T^T)) (DV (U *m z)) (DM (U *m H *m T')) (DM (U *m Rk *m U^T)) (DV y1) (DM V1) =
  Ret (true, (DV (T *m x'), DM (T *m P' *m T^T))).
Proof. exact @update_coord_ret. Qed.
Print Assumptions C82_update_coordinates.
Example C82_case (z : 'cV[R]_2) : let T : 'M[R]_2 := (IZR 2)%:M in
  filterUpdate (DV (T *m 0)) (DM (T *m 1%:M *m T^T)) (DV (1%:M *m z)) (DM (1%:M *m 1%:M *m (Rdiv 1 2)%:M : 'M[R]_2))
     (DM (1%:M *m 1%:M *m (1%:M : 'M[R]_2)^T)) (DV (0 : 'cV[R]_2)) (DM (0 : 'M[R]_2)) =
  Ret (true, (DV (T *m (Rdiv 1 2 *: z)), DM (T *m (Rdiv 1 2)%:M *m T^T))).
Proof.
  have A : (IZR 2)%:M *m (Rdiv 1 2)%:M = 1%:M :> 'M[R]_2 by rewrite -scalar_mxM; congr (_%:M); toR; lra.
  have B : (Rdiv 1 2)%:M *m (IZR 2)%:M = 1%:M :> 'M[R]_2 by rewrite -scalar_mxM; congr (_%:M); toR; lra.
  exact: (C82_update_coordinates A B (mulmx1 _) (mulmx1 _) 0 0 (update_case z)).
Qed.

(** C83 *)
Theorem C83_information_adds : forall n (h : seq (meas n)) (x x' : 'cV[R]_n) (P P' : 'M[R]_n),
  pd P -> all_valid (map (@to_op n) h) ->
  run (map (@to_op n) h) (DV x) (DM P) = Ret (true, (DV x', DM P')) ->
  [/\ pd P', invmx P' = invmx P + \sum_(m <- h) info_mx m &
      invmx P' *m x' = invmx P *m x + \sum_(m <- h) info_vec m].
Proof. exact @run_info. Qed.
Print Assumptions C83_information_adds.
Theorem C83_any_order : forall n (h h' : seq (meas n)) (x : 'cV[R]_n) (P : 'M[R]_n),
  Permutation h h' -> pd P -> all_valid (map (@to_op n) h) ->
  run (map (@to_op n) h) (DV x) (DM P) = run (map (@to_op n) h') (DV x) (DM P).
Proof. exact @run_perm. Qed.
Print Assumptions C83_any_order.
Example C83_case (z1 z2 : 'cV[R]_2) (z3 : 'cV[R]_1) (H1 H2 : 'M[R]_2) (H3 : 'M[R]_(1, 2)) (x : 'cV[R]_2) :
  run (map (@to_op 2) [:: Meas z1 H1 1%:M; Meas z2 H2 1%:M; Meas z3 H3 1%:M]) (DV x) (DM (1%:M : 'M[R]_2)) =
  run (map (@to_op 2) [:: Meas z3 H3 1%:M; Meas z1 H1 1%:M; Meas z2 H2 1%:M]) (DV x) (DM (1%:M : 'M[R]_2)).
Proof.
  apply: C83_any_order; [exact: (Permutation_cons_append [:: _; _] _ : Permutation _ _) || idtac|exact: pd1|].
  - apply: Permutation_sym. exact: (Permutation_cons_append [:: _; _]).
  - have D := pd1 2. have D' := pd1 1. by [].
Qed.

(** C84 *)
Theorem C84_least_squares : forall n m (x x1 x' xi : 'cV[R]_n) (z : 'cV[R]_m) (P P1 P' : 'M[R]_n) (H : 'M[R]_(m, n)) (Rk : 'M[R]_m),
  pd P -> pd Rk ->
  filterUpdate (DV x) (DM P) (DV z) (DM H) (DM Rk) (DV x1) (DM P1) = Ret (true, (DV x', DM P')) ->
  let J v := Rplus (qf (invmx P) (v - x)) (qf (invmx Rk) (z - H *m v)) in
  J xi = Rplus (J x') (qf (invmx P') (xi - x')) /\ Rle (J x') (J xi) /\ (J xi = J x' -> xi = x').
Proof. exact @update_map. Qed.
Print Assumptions C84_least_squares.
Example C84_case (z xi : 'cV[R]_2) : let y := Rdiv 1 2 *: z in
  Rle (Rplus (qf 1%:M y) (qf 1%:M (z - y))) (Rplus (qf 1%:M xi) (qf 1%:M (z - xi))).
Proof.
  have [_ [L _]] := C84_least_squares xi (pd1 2) (pd1 2) (update_case z).
  by rewrite invmx1 !subr0 !mul1mx in L.
Qed.

(** C85 *)
Theorem C85_better_data_better_covariance : forall n (h hb : seq (op n)), worse h hb ->
  forall (x y x' y' : 'cV[R]_n) (P Pb P' Pb' : 'M[R]_n),
  all_valid h -> all_valid hb -> psd P -> psd Pb -> loewner P Pb ->
  run h (DV x) (DM P) = Ret (true, (DV x', DM P')) -> run hb (DV y) (DM Pb) = Ret (true, (DV y', DM Pb')) ->
  loewner P' Pb'.
Proof. exact @run_mono. Qed.
Print Assumptions C85_better_data_better_covariance.
Example C85_case (z : 'cV[R]_2) (Phi H : 'M[R]_2) : exists (x1 x2 : 'cV[R]_2) (P1 P2 : 'M[R]_2),
  run [:: Update z H 1%:M; Predict Phi 1%:M] (DV z) (DM (1%:M : 'M[R]_2)) = Ret (true, (DV x1, DM P1)) /\
  run [:: Predict Phi 1%:M] (DV z) (DM (1%:M : 'M[R]_2)) = Ret (true, (DV x2, DM P2)) /\ loewner P1 P2.
Proof.
  have D := pd1 2. have D' := pd_psd D.
  have V1 : all_valid [:: Update z H 1%:M; Predict Phi 1%:M] by [].
  have V2 : all_valid [:: Predict Phi 1%:M] by [].
  have [x1 [P1 [E1 _]]] := C50_histories z V1 D'. have [x2 [P2 [E2 _]]] := C50_histories z V2 D'.
  exists x1, x2, P1, P2. do 2 (split; first by []).
  have L := @loewner_refl 2 1%:M.
  exact: (C85_better_data_better_covariance (worse_drop z H 1%:M (worse_predict Phi L (worse_nil 2))) V1 V2 D' D' L E1 E2).
Qed.

(** C86 *)
Theorem C86_consistent : forall n (h : seq (event n)) e P e' P', sim h e P e' P' -> consistent e P -> consistent e' P'.
Proof. exact @sim_consistent. Qed.
Print Assumptions C86_consistent.
Theorem C86_runs : forall n (h : seq (event n)) e P, good_events h -> psd P -> consistent e P ->
  exists e' P', sim h e P e' P' /\ psd P' /\ consistent e' P'.
Proof. exact @sim_exists. Qed.
Print Assumptions C86_runs.
(** A scalar state known exactly, moved by noise of +1 or -1 and then measured
    with noise of +1 or -1. *)
Example C86_case : let q (_ : bool) : R := Rdiv 1 2 in
  let V (b : bool) : 'cV[R]_1 := (if b then 1 else -1)%:M in
  exists e' P', sim [:: Move q V 1%:M; Measure q V 1%:M] (Ens (fun _ : unit => 1) (fun _ => 0) (fun _ => 0)) 0 e' P' /\
    psd P' /\ consistent e' P'.
Proof.
  move=> q V.
  have W : weights q by rewrite /weights big_bool /q /=; toR; lra.
  have M : mean q V = 0.
  { rewrite /mean big_bool /= -scalerDr /V -raddfD /=. rewrite (_ : (1 : R) + -1 = 0) ?raddf0 ?scaler0 //. toR. lra. }
  have N b : Rle 0 (q b) by rewrite /q; lra.
  have C : cov q V = 1%:M.
  { rewrite /cov big_bool M /= !subr0 /V !tr_scalar_mx -!scalar_mxM !scale_scalar_mx -raddfD /=. congr (_%:M). rewrite /q. toR. lra. }
  apply: C86_runs; [|exact: psd0|].
  - do 3 (split=> //). rewrite C. exact: pd1.
  - have Z : (fun i : unit => (0 : 'cV[R]_1) - 0) = (fun _ => 0) by rewrite subrr.
    have W1 : weights (fun _ : unit => (1 : R)) by rewrite /weights big_const card_unit /= addr0.
    split=> //=; rewrite Z /cov ?mean_const //. rewrite subrr mul0mx big1 // => i _. by rewrite scaler0.
Qed.
