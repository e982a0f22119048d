(** Claims about the Kalman filter (src/filter/KalmanFilter.cpp) in double
    arithmetic, continued: rounding errors of the estimates in long runs. *)
From Coq Require Import Reals Lra.
From Flocq Require Import Core.Raux Core.Zaux.
From mathcomp Require Import all_ssreflect all_algebra.
From Verif Require Import Base BaseMx ModelEigen ModelKalman ModelDate ModelStrapdownFloat ModelFilterFloat ModelUpdateFloat ModelLongFloat SpecFloatOps SpecKalman SpecFilter SpecSteady
  SpecFilterFloat SpecUpdateFloat SpecDisturb SpecLopsided SpecLongFloat ProofKalman5 ProofDisturb2 ProofLopsided ProofLongFloat ProofLongFloat2 ProofLongState.
Set Implicit Arguments.
Unset Strict Implicit.
Unset Printing Implicit Defensive.
Import GRing.Theory.
Local Open Scope ring_scope.

(** C148: in runs of any length the computed estimate stays within a fixed small
    number [c] of standard deviations of the exact one. *)
Theorem C148_long_estimates : forall r dot n m (p l b g d X s : R) (h : seq (scall n)) (x : 'cV[R]_n) (P : 'M[R]_n),
  rnd_ok r -> dot_ok dot -> Rle (INR n) 1000000 -> (0 < n)%N -> ordinary p -> Rlt 0 l -> Rle 0 b -> Rle b (bpow radix2 300) -> Rle 0 g -> Rlt 0 d ->
  Rle 0 X -> ordinary (Rplus X (sqrt p)) -> Rle 0 s ->
  let G := Rplus (Rmult (Rplus 1 g) (Rplus 1 g)) (Rmult b b) in
  let e := Rmult (Rmult (Rmult 1000 (INR n)) (Rmult (Rplus (INR n) 1) u64)) (Rmult (Rdiv p l) G) in
  let w := Rmult (Rplus (INR m) 1) (Rplus 1 (Rinv d)) in
  let f := Rmult (Rmult (Rmult (Rmult (Rplus (INR n) 1) u64) G) (Rplus (Rmult 60 X) (Rmult 440 (Rmult (Rplus s 1) (sqrt p))))) (sqrt (Rdiv (Rmult 2 (INR n)) l)) in
  let c := Rmult (Rmult 4 w) (Rplus (Rmult (Rmult (Rmult 5 e) w) (Rplus s 1)) f) in
  Rle (Rmult (Rmult 16 e) (Rmult w w)) 1 -> Rle c 1 ->
  psd P -> tame p l b g h P -> calm X s h x P -> excited d [seq exact_call s | s <- h] P -> spaced m m [seq exact_call s | s <- h] ->
  exists (xf xe : 'cV[R]_n) (Pf Pe : 'M[R]_n), srun_f r dot h x P = Ret (xf, Pf) /\
    run [seq exact_call s | s <- h] (DV x) (DM P) = Ret (true, (DV xe, DM Pe)) /\ psd Pe /\ within (Rmult c c) Pe (xf - xe).
Proof. exact @long_estimates. Qed.
Print Assumptions C148_long_estimates.
(** What that says about each component. *)
Theorem C148_components : forall n (P : 'M[R]_n) (c : R) (x y : 'cV[R]_n) i, psd P -> Rle 0 c -> within (Rmult c c) P (x - y) ->
  Rle (Rabs (Rminus (x i 0) (y i 0))) (Rmult c (sqrt (P i i))).
Proof. move=> n P c x y i HP C W. rewrite -entry_sub. exact: within_entry. Qed.
Print Assumptions C148_components.

(** Two states, measured in turn with unit variance, then a prediction with
    process noise 1/2; any number of such rounds with measured values up to 1. *)
Example C148_case : forall zs (x : 'cV[R]_2), sized 1 x -> (forall z, z \in zs -> Rle (Rabs z.1) 1 /\ Rle (Rabs z.2) 1) ->
  exists (xf xe : 'cV[R]_2) (Pf Pe : 'M[R]_2), srun_f rnd64 (@dot_loop rnd64) (rounds zs) x 1%:M = Ret (xf, Pf) /\
  run [seq exact_call s | s <- rounds zs] (DV x) (DM (1%:M : 'M[R]_2)) = Ret (true, (DV xe, DM Pe)) /\
  within (Rmult (Rdiv 2 100000000) (Rdiv 2 100000000)) Pe (xf - xe).
Proof. exact estimates_case. Qed.
