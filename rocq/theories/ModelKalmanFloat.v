(** src/filter/KalmanFilter.cpp with one state and one measurement, in rounded
    arithmetic: [r] rounds the result of every operation.  With one row and one
    column every product of matrices is a single multiplication, and inverse()
    is the division 1 / S.  Overflow and contraction to fused operations are
    not modelled; sizes are right.  No proofs here. *)
From Coq Require Import Reals List.
From Verif Require Import Base.
Import ListNotations.
Open Scope R_scope.
Open Scope outcome_scope.

(** KalmanFilter.cpp 49-53. *)
Definition filterPredict1_f (r : R -> R) (x P phi Q : R) : R * R :=
  (r (phi * x), r (r (r (phi * P) * phi) + Q)).

(** KalmanFilter.cpp 98-109. *)
Definition filterUpdate1_f (r : R -> R) (x P z H Rk : R) : outcome (R * R) :=
  let nu := r (z - r (H * x)) in
  Si <- Rdivc 1 (r (r (r (H * P) * H) + Rk)) ;;
  let K := r (r (P * H) * r Si) in
  let IKH := r (1 - r (K * H)) in
  Ret (r (x + r (K * nu)), r (r (r (IKH * P) * IKH) + r (r (K * Rk) * K))).

(** A sequence of calls, each on the results of the one before; the calls of
    the repository's user, not code of the repository. *)
Inductive step1 := Predict1 (phi Q : R) | Update1 (z H Rk : R).
Fixpoint run1_f (r : R -> R) (x P : R) (l : list step1) : outcome (list (R * R)) :=
  match l with
  | [] => Ret []
  | s :: l' =>
      y <- (match s with
            | Predict1 phi Q => Ret (filterPredict1_f r x P phi Q)
            | Update1 z H Rk => filterUpdate1_f r x P z H Rk end) ;;
      t <- run1_f r (fst y) (snd y) l' ;;
      Ret (y :: t)
  end.
