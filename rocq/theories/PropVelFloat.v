(** Theorem C158: fine alignment in double arithmetic, the velocity update. *)
From Coq Require Import Reals Lra.
From Flocq Require Import Core.
From mathcomp Require Import all_ssreflect all_algebra.
From Verif Require Import Base BaseMx ModelEigen ModelKalman ModelDate ModelLuMx ModelFine ModelFilterFloat ModelUpdateFloat ModelFineFloat SpecFloatOps SpecKalman SpecFine SpecLdltFloat SpecFilterFloat SpecUpdateFloat SpecLuFloat SpecFineFloat
  ModelLdltFloat ProofLdlt7 ProofLdlt8 ProofVelFloat ProofVelCase.
Set Implicit Arguments.
Unset Strict Implicit.
Unset Printing Implicit Defensive.
Import GRing.Theory.
Local Open Scope ring_scope.

(** C158: [D] bounds the standard deviations of the states, [T] is that of the
    measured velocities and [d] bounds that of the velocity states; [c] compares
    the deviation of an innovation, sqrt (d^2 + T^2), with [T].  The error of a
    covariance is then about 2300 c^2 roundings of the product of the two
    deviations, and that of a state about 9000 c^3 roundings of the largest
    correction it could have been given. *)
Theorem C158_velocity_update : forall r dot msub vel0 vel1 dtVel sigVel (x x1 : 'cV[R]_8) (P P1 : 'M[R]_8) (D : 'I_8 -> R) T d c,
  rel_ok r -> dot_ok dot -> msub_ok msub -> psd P -> (forall i, ordinary (D i)) -> (forall i, Rle (P i i) (Rmult (D i) (D i))) -> Rle 0 dtVel -> Rle dtVel (bpow radix2 300) ->
  ordinary T -> Rmult (Rmult sigVel sigVel) dtVel = Rmult T T -> ordinary d -> Rle (D vN) d -> Rle (D vE) d ->
  Rle 0 c -> Rplus (Rmult d d) (Rmult T T) = Rmult (Rmult c c) (Rmult T T) -> Rle (Rmult (Rmult 300000 u64) (Rmult (Rmult c c) c)) 1 ->
  exists (xe xf : 'cV[R]_8) (Pe Pf : 'M[R]_8), fineAlignmentVelocityUpdate vel0 vel1 dtVel sigVel (DV x) (DM P) (DV x1) (DM P1) = Ret (true, (DV xe, DM Pe)) /\
  fineAlignmentVelocityUpdate_f r dot (lu_mx r msub) vel0 vel1 dtVel sigVel x P = Ret (xf, Pf) /\
  (forall i, Rle (Rabs (Rminus (xf i 0) (xe i 0))) (Rplus (Rmult (Rmult 108 u64) (Rplus (Rabs (x i 0)) tiny64))
     (Rmult (Rmult (Rmult 9000 u64) (Rmult (Rmult c c) c)) (Rmult (Rdiv (D i) T) (Rplus (Rplus (Rplus (Rplus (Rabs vel0) (Rabs vel1)) (Rabs (x vN 0))) (Rabs (x vE 0))) (Rmult 2 tiny64)))))) /\
  (forall i j, Rle (Rabs (Rminus (Pf i j) (Pe i j)))
     (Rmult (Rplus (Rmult (Rmult 2300 u64) (Rmult c c)) (Rmult (Rmult (Rmult 17500 u64) (Rmult (Rmult (Rmult c c) c) c)) (Rmult (Rmult 17500 u64) (Rmult (Rmult (Rmult c c) c) c)))) (Rmult (D i) (D j)))).
Proof. exact velocity_ok. Qed.
Print Assumptions C158_velocity_update.

(** Unit variances, north velocity measured as 1 and east velocity as 0, with
    unit variance. *)
Example C158_case : exists (xf : 'cV[R]_8) (Pf : 'M[R]_8), fineAlignmentVelocityUpdate_f rnd53 (@dot_loop rnd64) (lu_mx rnd53 (msub_loop rnd53)) 1 0 1 1 0 1%:M = Ret (xf, Pf) /\
  Rle (Rabs (Rminus (xf vN 0) (Rdiv 1 2))) (Rinv 100000000000) /\ Rle (Rabs (Rminus (Pf vN vN) (Rdiv 1 2))) (Rinv 1000000000000).
Proof. exact vel_case. Qed.
