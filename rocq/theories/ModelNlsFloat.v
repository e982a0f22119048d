(** The nonlinear least squares of src/filter/BatchLeastSquares.cpp in
    rounded arithmetic, for any number of states and measurements: [r] rounds the
    result of an addition or a square root, [dot] is the inner product of a row
    and a column (ModelFilterFloat.v), [solve] is Eigen's ldlt().solve(), [hF] and
    [HF] are the values the user's model functions compute.  They succeed; sizes
    are right; overflow is not modelled.  No proofs here. *)
From Coq Require Import Reals.
From mathcomp Require Import all_ssreflect all_algebra.
From Verif Require Import Base BaseMx ModelFilterFloat ModelBlsFloat.
Set Implicit Arguments.
Unset Strict Implicit.
Unset Printing Implicit Defensive.
Import GRing.Theory.
Local Open Scope ring_scope.
Local Open Scope outcome_scope.

Section Nls.
Variables (r : R -> R) (dot : dot_fun) (m n : nat) (solve : 'M[R]_n -> 'cV[R]_n -> outcome 'cV[R]_n).
Variables (hF : 'cV[R]_n -> 'cV[R]_m) (HF : 'cV[R]_n -> 'M[R]_(m, n)) (y : 'cV[R]_m) (W : 'M[R]_m) (eps : R).
(** BatchLeastSquares.cpp 138: the new estimate. *)
Definition nls_step_f (x : 'cV[R]_n) : outcome 'cV[R]_n :=
  c <- solve (normal_f dot (HF x)) (rhs_f dot (HF x) (map_mx r (y - hF x))) ;;
  Ret (map_mx r (x + c)).
(** BatchLeastSquares.cpp 212: the new estimate, with weights. *)
Definition wnls_step_f (x : 'cV[R]_n) : outcome 'cV[R]_n :=
  c <- solve (wnormal_f dot (HF x) W) (wrhs_f dot (HF x) W (map_mx r (y - hF x))) ;;
  Ret (map_mx r (x + c)).
(** Eigen's norm(), as in BatchLeastSquares.cpp 123 and 197. *)
Definition norm_f (v : 'cV[R]_n) : R := r (sqrt (@dot n (fun i => v i ord0) (fun i => v i ord0))).
(** BatchLeastSquares.cpp 123-146 and 197-220: the while loop, with fuel, on Hk,
    xk, xkp1 and res; [step] computes the new estimate. *)
Fixpoint nls_loop_f (step : 'cV[R]_n -> outcome 'cV[R]_n) (fuel : nat) (H : 'M[R]_(m, n)) (x x1 res : 'cV[R]_n) : outcome ('M[R]_(m, n) * 'cV[R]_n * 'cV[R]_n) :=
  if Rlt_dec eps (norm_f res) then
    match fuel with
    | O => NoFuel
    | S fuel =>
        x' <- step x ;;
        nls_loop_f step fuel (HF x) x' x' (map_mx r (x' - x))
    end
  else Ret (H, x, x1).
(** BatchLeastSquares.cpp 91-157, outputs Hk, xk, xkp1 and J. *)
Definition unweighted_nls_f (fuel : nat) (H : 'M[R]_(m, n)) (x x1 : 'cV[R]_n) : outcome ('M[R]_(m, n) * 'cV[R]_n * 'cV[R]_n * R) :=
  s <- nls_loop_f nls_step_f fuel H x x1 (map_mx r (x1 - x)) ;;
  Ret (s, cost_f r dot y s.1.1 s.2).
(** BatchLeastSquares.cpp 159-231, outputs Hk, xk, xkp1 and J. *)
Definition weighted_nls_f (fuel : nat) (H : 'M[R]_(m, n)) (x x1 : 'cV[R]_n) : outcome ('M[R]_(m, n) * 'cV[R]_n * 'cV[R]_n * R) :=
  s <- nls_loop_f wnls_step_f fuel H x x1 (map_mx r (x1 - x)) ;;
  Ret (s, cost_f r dot y s.1.1 s.2).
End Nls.
