(** Claims about the unscented filter in double arithmetic
    (src/filter/KalmanFilter.cpp 117-247). *)
From Coq Require Import Reals Lra.
From mathcomp Require Import all_ssreflect all_algebra.
From Verif Require Import Base BaseMx ModelEigen ModelKalman ModelDate ModelFilterFloat ModelUkfFloat SpecFloatOps SpecKalman SpecFilterFloat SpecLdltFloat SpecUkfFloat
  ProofMx ProofFilterFloat ProofLdlt8 ProofUkfFloat2 ProofUkfFloat3.
Set Implicit Arguments.
Unset Strict Implicit.
Unset Printing Implicit Defensive.
Import GRing.Theory.
Local Open Scope ring_scope.
Local Open Scope outcome_scope.

(** C154.  The predicted state, with weights of either sign. *)
Theorem C154_state_error : forall r n k (W : 'cV[R]_k) (Y : 'M[R]_(n, k)) (Q : 'M[R]_n) a, rel_ok r -> Rle (INR k) 1000000 ->
  Rle (Rabs (Rminus ((filterUkfPredict_f r W Y Q).1 a 0) (SpecKalman.mean (weights W) (points Y) a 0))) (slip W Y a).
Proof. move=> r n k W Y Q a Hr Hk. exact: mean_close. Qed.
Print Assumptions C154_state_error.

(** Weights of a distribution: the error of the state enters the covariance in
    second order only. *)
Theorem C154_covariance_error : forall r n k (W : 'cV[R]_k) (Y : 'M[R]_(n, k)) (Q : 'M[R]_n) a b, rel_ok r -> Rle (INR k) 1000000 -> distribution W ->
  let V := cov (weights W) (points Y) in
  let s a := slip W Y a in
  Rle (Rabs (Rminus ((filterUkfPredict_f r W Y Q).2 a b) (Rplus (Q a b) (V a b))))
  (Rplus (Rmult (units k 4) (Rplus (Rabs (Q a b)) (Rmult (sqrt (Rplus (V a a) (Rmult (s a) (s a)))) (sqrt (Rplus (V b b) (Rmult (s b) (s b))))))) (Rmult (s a) (s b))).
Proof. move=> r n k W Y Q a b Hr Hk D. exact: dist_weights. Qed.
Print Assumptions C154_covariance_error.

(** Weights of either sign: what is lost grows with the sum of their sizes, and
    with the distance of their sum from one. *)
Theorem C154_covariance_error_any_weights : forall r n k (W : 'cV[R]_k) (Y : 'M[R]_(n, k)) (Q : 'M[R]_n) a b, rel_ok r -> Rle (INR k) 1000000 ->
  let V := cov (weights W) (points Y) in
  let m := SpecKalman.mean (weights W) (points Y) in
  let s a := slip W Y a in
  Rle (Rabs (Rminus ((filterUkfPredict_f r W Y Q).2 a b) (Rplus (Q a b) (V a b))))
  (Rplus (Rplus (Rmult (units k 4) (Rplus (Rabs (Q a b)) (\sum_i Rmult (Rabs (W i 0)) (Rmult (Rplus (Rabs (Rminus (Y a i) (m a 0))) (s a)) (Rplus (Rabs (Rminus (Y b i) (m b 0))) (s b))))))
    (Rmult (Rabs (Rminus 1 (\sum_i W i 0))) (Rplus (Rmult (s a) (Rabs (m b 0))) (Rmult (s b) (Rabs (m a 0))))))
    (Rmult (Rabs (\sum_i W i 0)) (Rmult (s a) (s b)))).
Proof. move=> r n k W Y Q a b Hr Hk. exact: any_weights. Qed.
Print Assumptions C154_covariance_error_any_weights.

(** Variances do not turn negative, and opposite entries stay close. *)
Theorem C154_variances : forall r n k (W : 'cV[R]_k) (Y : 'M[R]_(n, k)) (Q : 'M[R]_n) a, rel_ok r -> distribution W -> Rle 0 (Q a a) ->
  Rle 0 ((filterUkfPredict_f r W Y Q).2 a a).
Proof. move=> r n k W Y Q a Hr D. exact: dist_variance. Qed.
Print Assumptions C154_variances.
Theorem C154_opposite_entries : forall r n k (W : 'cV[R]_k) (Y : 'M[R]_(n, k)) (Q : 'M[R]_n) a b, rel_ok r -> Rle (INR k) 1000000 -> distribution W -> Q a b = Q b a ->
  let V := cov (weights W) (points Y) in
  let s a := slip W Y a in
  Rle (Rabs (Rminus ((filterUkfPredict_f r W Y Q).2 a b) ((filterUkfPredict_f r W Y Q).2 b a)))
  (Rmult (Rmult 2 (units k 4)) (Rplus (Rabs (Q a b)) (Rmult (sqrt (Rplus (V a a) (Rmult (s a) (s a)))) (sqrt (Rplus (V b b) (Rmult (s b) (s b))))))).
Proof. move=> r n k W Y Q a b Hr Hk D QS. exact: dist_asym. Qed.
Print Assumptions C154_opposite_entries.

(** They need not be equal. *)
Theorem C154_symmetry_refuted :
  ~ (forall (W : 'cV[R]_5) (Y : 'M[R]_(2, 5)) (Q : 'M[R]_2), distribution W -> psd Q -> symmetric (filterUkfPredict_f rnd64 W Y Q).2).
Proof. exact ukf_symmetry_lost. Qed.
Print Assumptions C154_symmetry_refuted.

(** Without rounding these are the functions of the unscented filter. *)
Theorem C154_exact_arithmetic : forall n m (W : 'cV[R]_(2 * n + 1)) (Y : 'M[R]_(n, 2 * n + 1)) (Q P P1 : 'M[R]_n) (x x1 : 'cV[R]_n) (Z : 'M[R]_(m, 2 * n + 1)) (z : 'cV[R]_m) (Rk : 'M[R]_m),
  (let: (xp, Pp) := filterUkfPredict_f (fun x => x) W Y Q in filterUkfPredict (DV W) (DM Y) (DM Q) (DV x1) (DM P1) = Ret (true, (DV xp, DM Pp))) /\
  filterUkfUpdate (DV x) (DM P) (DM Y) (DV W) (DM Z) (DV z) (DM Rk) (DV x1) (DM P1) =
  (p <- filterUkfUpdate_f (fun x => x) (fun k a b => \sum_(i < k) a i * b i) (fun S => if S \in unitmx then Ret (invmx S) else NonFinite) x P Y W Z z Rk ;; Ret (true, (DV p.1, DM p.2))).
Proof. move=> *. split; [exact: predict_exact|exact: update_exact]. Qed.
Print Assumptions C154_exact_arithmetic.

(** Three points of one coordinate: mean 2, covariance 9/2, process noise 1. *)
Example C154_case : rel_ok rnd53 /\ distribution w3 /\
  SpecKalman.mean (weights w3) (points y3) 0 0 = IZR 2 /\ cov (weights w3) (points y3) 0 0 = Rdiv 9 2 /\
  Rle (Rabs (Rminus ((filterUkfPredict_f rnd53 w3 y3 1%:M).1 0 0) (IZR 2))) (Rinv (IZR 10000000000000)) /\
  Rle (Rabs (Rminus ((filterUkfPredict_f rnd53 w3 y3 1%:M).2 0 0) (Rdiv 11 2))) (Rinv (IZR 1000000000000)).
Proof.
  have S : Rle 0 (slip w3 y3 0) /\ Rle (slip w3 y3 0) (Rinv (IZR 10000000000000)).
  { apply: case_slip. by rewrite /slip /units !big_ord_recr big_ord0 /= !mxE /=. }
  have K3 : Rle (INR 3) 1000000 by rewrite /=; lra.
  split; [exact: rnd53_rel|]. split; [exact: w3_dist|]. split; [exact: mean3|]. split; [exact: cov3|]. split.
  - rewrite -mean3. exact: Rle_trans (C154_state_error _ _ _ _ rnd53_rel K3) (proj2 S).
  - have := C154_covariance_error y3 1%:M 0 0 rnd53_rel K3 w3_dist. cbv zeta. rewrite cov3 !mxE /=. have -> : Rplus 1 (Rdiv 9 2) = Rdiv 11 2 by lra. exact: case_bound S.
Qed.
Print Assumptions C154_case.
