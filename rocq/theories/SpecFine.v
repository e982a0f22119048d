(** Specification of the fine alignment filter: names of its states, the error
    equations it is based on, and histories of calls. *)
From Coq Require Import Reals.
From mathcomp Require Import all_ssreflect all_algebra.
From Verif Require Import Base BaseMx ModelEigen ModelKalman ModelFine.
Set Implicit Arguments.
Unset Strict Implicit.
Unset Printing Implicit Defensive.
Import GRing.Theory.
Local Open Scope ring_scope.
Local Open Scope outcome_scope.
Delimit Scope R_scope with re.

(** Attitude errors (north, east, down), gyro biases, velocity errors (north, east). *)
Definition aN : 'I_8 := inord 0.
Definition aE : 'I_8 := inord 1.
Definition aD : 'I_8 := inord 2.
Definition bN : 'I_8 := inord 3.
Definition bE : 'I_8 := inord 4.
Definition bD : 'I_8 := inord 5.
Definition vN : 'I_8 := inord 6.
Definition vE : 'I_8 := inord 7.
Definition is_bias (i : 'I_8) : Prop := i = bN \/ i = bE \/ i = bD.

(** A state's value. *)
Definition st (x : 'cV[R]_8) (i : 'I_8) : R := x i 0.

(** The rates of change of the states: a body at rest at latitude lat on an Earth
    of radius r turning at wE, gravity g, biases constant. *)
Definition is_rate (lat wE g r : R) (x d : 'cV[R]_8) : Prop :=
  (st d aN = - (wE * sin lat) * st x aE - st x bN + st x vE / r)%re /\
  (st d aE = wE * sin lat * st x aN + wE * cos lat * st x aD - st x bE - st x vN / r)%re /\
  (st d aD = - (wE * cos lat) * st x aE - st x bD + tan lat * st x vE / r)%re /\
  st d bN = R0 /\ st d bE = R0 /\ st d bD = R0 /\
  (st d vN = g * st x aE - 2 * (wE * sin lat) * st x vE)%re /\
  (st d vE = - g * st x aN + 2 * (wE * sin lat) * st x vN)%re.

Definition fine_sizes (xk : dvec) (Pk : dmat) (xkp1 : dvec) (Pkp1 : dmat) : Prop :=
  dv_n xk = 8%N /\ dm_r Pk = 8%N /\ dm_c Pk = 8%N /\ dv_n xkp1 = 8%N /\ dm_r Pkp1 = 8%N /\ dm_c Pkp1 = 8%N.

(** Calls, run in place. *)
Inductive fcall :=
  | FPredict (lat wE g r : R)
  | FAzimuth (azMeas dtAz azEst sigAz : R)
  | FVelocity (v0 v1 dtVel sigVel : R).
Definition fstep (c : fcall) (x : dvec) (P : dmat) : outcome (bool * (dvec * dmat)) :=
  match c with
  | FPredict lat wE g r => fineAlignmentPredict lat wE g r x P x P
  | FAzimuth azMeas dtAz azEst sigAz => fineAlignmentAzimuthUpdate azMeas dtAz azEst sigAz x P x P
  | FVelocity v0 v1 dtVel sigVel => fineAlignmentVelocityUpdate v0 v1 dtVel sigVel x P x P
  end.
Fixpoint frun (h : seq fcall) (x : dvec) (P : dmat) : outcome (dvec * dmat) :=
  match h with
  | [::] => Ret (x, P)
  | c :: h => r <- fstep c x P ;; frun h r.2.1 r.2.2
  end.
Definition is_predict (c : fcall) : bool := if c is FPredict _ _ _ _ then true else false.
