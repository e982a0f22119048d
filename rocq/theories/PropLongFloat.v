(** Claims about the Kalman filter (src/filter/KalmanFilter.cpp) in double
    arithmetic, continued: rounding errors of long runs. *)
From Coq Require Import Reals Lra.
From Flocq Require Import Core.Raux Core.Zaux.
From mathcomp Require Import all_ssreflect all_algebra.
From Verif Require Import Base BaseMx ModelEigen ModelKalman ModelDate ModelStrapdownFloat ModelFilterFloat ModelUpdateFloat ModelLongFloat SpecFloatOps SpecKalman SpecFilter SpecSteady
  SpecFilterFloat SpecUpdateFloat SpecDisturb SpecLopsided SpecLongFloat ProofKalman5 ProofDisturb2 ProofLopsided ProofLongFloat ProofLongFloat2.
Set Implicit Arguments.
Unset Strict Implicit.
Unset Printing Implicit Defensive.
Import GRing.Theory.
Local Open Scope ring_scope.

(** C147: predictions and scalar measurements in double arithmetic.  The
    covariance of a run of any length differs from the exact one by a fixed
    fraction; no call fails. *)
Theorem C147_long_runs : forall r dot n m (p l b g d : R) (h : seq (scall n)) (x : 'cV[R]_n) (P : 'M[R]_n),
  rnd_ok r -> dot_ok dot -> Rle (INR n) 1000000 -> (0 < n)%N -> ordinary p -> Rlt 0 l -> Rle 0 b -> Rle b (bpow radix2 300) -> Rle 0 g -> Rlt 0 d ->
  let e := Rmult (Rmult (Rmult 1000 (INR n)) (Rmult (Rplus (INR n) 1) u64)) (Rmult (Rdiv p l) (Rplus (Rmult (Rplus 1 g) (Rplus 1 g)) (Rmult b b))) in
  let w := Rmult (Rplus (INR m) 1) (Rplus 1 (Rinv d)) in
  Rle (Rmult (Rmult 16 e) (Rmult w w)) 1 -> psd P -> tame p l b g h P -> excited d [seq exact_call s | s <- h] P -> spaced m m [seq exact_call s | s <- h] ->
  exists (xf xe : 'cV[R]_n) (Pf Pe : 'M[R]_n), srun_f r dot h x P = Ret (xf, Pf) /\
    run [seq exact_call s | s <- h] (DV x) (DM P) = Ret (true, (DV xe, DM Pe)) /\ psd Pe /\ alike (Rmult (Rmult 4 e) w) Pe Pf.
Proof. exact @long_runs. Qed.
Print Assumptions C147_long_runs.
(** What that says about each entry, and about the variance in any direction:
    the computed one does not turn negative. *)
Theorem C147_entries : forall n (A B : 'M[R]_n) e i j, psd A -> Rle 0 e -> alike e A B ->
  Rle (Rabs (Rminus (B i j) (A i j))) (Rmult e (sqrt (Rmult (A i i) (A j j)))).
Proof. exact @alike_entry. Qed.
Print Assumptions C147_entries.
Theorem C147_variances : forall n (A B : 'M[R]_n) e (v : 'cV[R]_n), psd A -> Rle 0 e -> alike e A B ->
  Rle (Rabs (Rminus (qf B v) (qf A v))) (Rmult e (qf A v)).
Proof. exact @alike_variance. Qed.
Print Assumptions C147_variances.

(** Two states, measured in turn with unit variance, then a prediction with
    process noise 1/2; any number of such rounds. *)
Example C147_case : forall zs (x : 'cV[R]_2), exists (xf xe : 'cV[R]_2) (Pf Pe : 'M[R]_2), srun_f rnd64 (@dot_loop rnd64) (rounds zs) x 1%:M = Ret (xf, Pf) /\
  run [seq exact_call s | s <- rounds zs] (DV x) (DM (1%:M : 'M[R]_2)) = Ret (true, (DV xe, DM Pe)) /\ alike (Rdiv 2 10000000000) Pe Pf.
Proof. exact rounds_case. Qed.
