(** KalmanFilter::filterPredict in rounded arithmetic, for any number of states:
    [r] rounds the result of an addition and [dot] is the inner product of a row
    and a column, in whatever order the library adds.  Overflow is not modelled;
    sizes are right.  No proofs here. *)
From Coq Require Import Reals.
From mathcomp Require Import all_ssreflect all_algebra.
From Verif Require Import Base BaseMx.
Set Implicit Arguments.
Unset Strict Implicit.
Unset Printing Implicit Defensive.
Import GRing.Theory.
Local Open Scope ring_scope.

(** An inner product routine, and Eigen's matrix product by it. *)
Definition dot_fun := forall k, ('I_k -> R) -> ('I_k -> R) -> R.
Definition mul_f (dot : dot_fun) m k n (A : 'M[R]_(m, k)) (B : 'M[R]_(k, n)) : 'M[R]_(m, n) :=
  \matrix_(i, j) dot k (fun l => A i l) (fun l => B l j).

(** KalmanFilter.cpp 49-53. *)
Definition filterPredict_f (r : R -> R) (dot : dot_fun) n (x : 'cV[R]_n) (P Phi Q : 'M[R]_n) : 'cV[R]_n * 'M[R]_n :=
  (mul_f dot Phi x, map_mx r (mul_f dot (mul_f dot Phi P) Phi^T + Q)).

(** The plain loop: terms added from left to right, each operation rounded. *)
Fixpoint dot_loop (r : R -> R) k : ('I_k -> R) -> ('I_k -> R) -> R :=
  match k with
  | O => fun _ _ => R0
  | S k' => fun a b => r (Rplus (dot_loop r (fun i => a (widen_ord (leqnSn k') i)) (fun i => b (widen_ord (leqnSn k') i)))
                                (r (Rmult (a ord_max) (b ord_max))))
  end.
