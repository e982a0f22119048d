(** Histories of calls of the Kalman filter in rounded arithmetic, for any number
    of states and one measured quantity at a time.  Overflow is not modelled;
    sizes are right.  No proofs here. *)
From Coq Require Import Reals.
From mathcomp Require Import all_ssreflect all_algebra.
From Verif Require Import Base BaseMx ModelFilterFloat ModelUpdateFloat.
Set Implicit Arguments.
Unset Strict Implicit.
Unset Printing Implicit Defensive.
Import GRing.Theory.
Local Open Scope ring_scope.
Local Open Scope outcome_scope.

(** A call of filterPredict (KalmanFilter.cpp 41-60) or of filterUpdate
    (KalmanFilter.cpp 89-115) with the measured value [z] of variance [rho]. *)
Inductive scall n := SPredict (Phi Q : 'M[R]_n) | SUpdate (z : R) (H : 'rV[R]_n) (rho : R).
Definition scall_f (r : R -> R) (dot : dot_fun) n (s : scall n) (x : 'cV[R]_n) (P : 'M[R]_n) : outcome ('cV[R]_n * 'M[R]_n) :=
  match s with
  | SPredict Phi Q => Ret (filterPredict_f r dot x P Phi Q)
  | SUpdate z H rho => filterUpdate_f r dot (inv1_f r) x P (const_mx z : 'M[R]_1) H (const_mx rho)
  end.
(** The caller passes the results on to the next call. *)
Fixpoint srun_f (r : R -> R) (dot : dot_fun) n (h : seq (scall n)) (x : 'cV[R]_n) (P : 'M[R]_n) : outcome ('cV[R]_n * 'M[R]_n) :=
  match h with
  | [::] => Ret (x, P)
  | s :: h => y <- scall_f r dot s x P ;; srun_f r dot h y.1 y.2
  end.
