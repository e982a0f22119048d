(** The linear least squares of src/filter/BatchLeastSquares.cpp in rounded
    arithmetic, for any number of states and measurements: [r] rounds the result
    of an addition or multiplication, [dot] is the inner product of a row and a
    column (ModelFilterFloat.v) and [solve] is Eigen's ldlt().solve(), about which
    nothing is assumed here.  Overflow is not modelled; sizes are right.  No
    proofs here. *)
From Coq Require Import Reals.
From mathcomp Require Import all_ssreflect all_algebra.
From Verif Require Import Base BaseMx ModelFilterFloat.
Set Implicit Arguments.
Unset Strict Implicit.
Unset Printing Implicit Defensive.
Import GRing.Theory.
Local Open Scope ring_scope.
Local Open Scope outcome_scope.

Section Bls.
Variables (r : R -> R) (dot : dot_fun) (m n : nat) (solve : 'M[R]_n -> 'cV[R]_n -> outcome 'cV[R]_n).
(** BatchLeastSquares.cpp 250-254: half the squared length of the residual. *)
Definition cost_f (y : 'cV[R]_m) (H : 'M[R]_(m, n)) (x : 'cV[R]_n) : R :=
  let e := map_mx r (y - mul_f dot H x) in
  r (Rmult (Rdiv 1 2) (@dot m (fun i => e i ord0) (fun i => e i ord0))).
(** BatchLeastSquares.cpp 38: the matrix and the right-hand side given to the solver. *)
Definition normal_f (H : 'M[R]_(m, n)) : 'M[R]_n := mul_f dot H^T H.
Definition rhs_f (H : 'M[R]_(m, n)) (y : 'cV[R]_m) : 'cV[R]_n := mul_f dot H^T y.
(** BatchLeastSquares.cpp 37-47. *)
Definition unweighted_f (y : 'cV[R]_m) (H : 'M[R]_(m, n)) : outcome ('cV[R]_n * R) :=
  x <- solve (normal_f H) (rhs_f H y) ;;
  Ret (x, cost_f y H x).
(** BatchLeastSquares.cpp 77. *)
Definition wnormal_f (H : 'M[R]_(m, n)) (W : 'M[R]_m) : 'M[R]_n := mul_f dot (mul_f dot H^T W) H.
Definition wrhs_f (H : 'M[R]_(m, n)) (W : 'M[R]_m) (y : 'cV[R]_m) : 'cV[R]_n := mul_f dot (mul_f dot H^T W) y.
(** BatchLeastSquares.cpp 76-86. *)
Definition weighted_f (y : 'cV[R]_m) (H : 'M[R]_(m, n)) (W : 'M[R]_m) : outcome ('cV[R]_n * R) :=
  x <- solve (wnormal_f H W) (wrhs_f H W y) ;;
  Ret (x, cost_f y H x).
End Bls.

(** The solver for one unknown: a division. *)
Definition solve1_f (r : R -> R) (A : 'M[R]_1) (b : 'cV[R]_1) : outcome 'cV[R]_1 :=
  x <- Rdivc (b ord0 ord0) (A ord0 ord0) ;; Ret (const_mx (r x)).
