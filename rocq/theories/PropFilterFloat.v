(** Theorem C127: the covariance prediction in double arithmetic, for any number
    of states. *)
From Coq Require Import Reals Lra.
From mathcomp Require Import all_ssreflect all_algebra.
From Verif Require Import Base BaseMx ModelEigen ModelKalman ModelDate ModelFilterFloat SpecFloatOps SpecKalman SpecFilterFloat ProofMx ProofFilterFloat ProofFilterFloat1.
Set Implicit Arguments.
Unset Strict Implicit.
Unset Printing Implicit Defensive.
Import GRing.Theory.
Local Open Scope ring_scope.

(** Every entry of the computed mean and covariance is within a few times n
    roundings of the sum of the sizes of its terms. *)
Theorem C127_prediction_error : forall r dot n (x x1 : 'cV[R]_n) (P Phi Q P1 : 'M[R]_n), rnd_ok r -> dot_ok dot -> Rle (INR n) 1000000 ->
  exists xe Pe, filterPredict (DV x) (DM P) (DM Phi) (DM Q) (DV x1) (DM P1) = Ret (true, (DV xe, DM Pe)) /\
  let: (xf, Pf) := filterPredict_f r dot x P Phi Q in
  (forall i, Rle (Rabs (Rminus (xf i ord0) (xe i ord0)))
                 (Rplus (Rmult (Rmult (Rdiv 101 100) (Rmult (INR n + 1) u64)) ((map_mx Rabs Phi *m map_mx Rabs x) i ord0)) (Rmult (3 * INR n) eta64))) /\
  (forall i j, Rle (Rabs (Rminus (Pf i j) (Pe i j)))
      (Rplus (Rplus (Rmult (Rmult (3 * (INR n + 1)) u64) (sizes Phi P i j)) (Rmult u64 (Rabs (Q i j)))) (Rmult (Rmult (5 * INR n) (1 + row_size Phi j)) eta64))).
Proof. exact dots_ok. Qed.
Print Assumptions C127_prediction_error.

(** Without rounding the computed prediction is the model's. *)
Theorem C127_exact_arithmetic : forall n (x x1 : 'cV[R]_n) (P Phi Q P1 : 'M[R]_n),
  let: (xf, Pf) := filterPredict_f id (fun k a b => \sum_(i < k) a i * b i) x P Phi Q in
  filterPredict (DV x) (DM P) (DM Phi) (DM Q) (DV x1) (DM P1) = Ret (true, (DV xf, DM Pf)).
Proof. exact exact_predict. Qed.
Print Assumptions C127_exact_arithmetic.

(** Symmetric covariances come out symmetric up to the same errors. *)
Theorem C127_asymmetry : forall r dot n (x : 'cV[R]_n) (P Phi Q : 'M[R]_n) i j, rnd_ok r -> dot_ok dot -> Rle (INR n) 1000000 -> symmetric P -> symmetric Q ->
  let: (_, Pf) := filterPredict_f r dot x P Phi Q in
  Rle (Rabs (Rminus (Pf i j) (Pf j i)))
      (Rplus (Rplus (Rmult (Rmult (6 * (INR n + 1)) u64) (sizes Phi P i j)) (Rmult (2 * u64) (Rabs (Q i j))))
             (Rmult (Rmult (5 * INR n) (2 + row_size Phi i + row_size Phi j)) eta64)).
Proof. exact asymmetry. Qed.
Print Assumptions C127_asymmetry.

(** The plain loop in doubles is such an arithmetic. *)
Theorem C127_plain_loop : rnd_ok rnd64 /\ forall r, rnd_ok r -> dot_ok (@dot_loop r).
Proof. split; [exact: rnd64_rnd_ok|exact: dot_loop_ok]. Qed.
Print Assumptions C127_plain_loop.

(** But a symmetric, positive semidefinite covariance need not come out
    symmetric, and its variances need not come out nonnegative. *)
Theorem C127_symmetry_refuted :
  ~ (forall (x : 'cV[R]_2) (P Phi Q : 'M[R]_2), psd P -> psd Q -> symmetric (filterPredict_f rnd64 (@dot_loop rnd64) x P Phi Q).2).
Proof. exact: symmetry_lost. Qed.
Print Assumptions C127_symmetry_refuted.
Theorem C127_variance_refuted :
  ~ (forall (x : 'cV[R]_2) (P Phi Q : 'M[R]_2) i, psd P -> psd Q -> Rle 0 ((filterPredict_f rnd64 (@dot_loop rnd64) x P Phi Q).2 i i)).
Proof. exact: variance_negative. Qed.
Print Assumptions C127_variance_refuted.

(** A constant-velocity step of one second from a unit covariance: the variance
    of the position is 2 up to eighteen roundings of one. *)
Example C127_case : exists xe Pe,
  filterPredict (DV (0 : 'cV[R]_2)) (DM (1%:M : 'M[R]_2)) (DM (mx2 1 1 0 1)) (DM (0 : 'M[R]_2)) (DV (0 : 'cV[R]_2)) (DM (0 : 'M[R]_2)) = Ret (true, (DV (xe : 'cV[R]_2), DM (Pe : 'M[R]_2))) /\
  Pe 0 0 = IZR 2 /\
  Rle (Rabs (Rminus ((filterPredict_f rnd64 (@dot_loop rnd64) (0 : 'cV[R]_2) 1%:M (mx2 1 1 0 1) 0).2 0 0) (Pe 0 0)))
      (Rplus (Rmult 18 u64) (Rmult 30 eta64)).
Proof. exact: unit_step. Qed.
