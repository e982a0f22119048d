(** When Gauss-Newton steps contract: the notions of the convergence theorem. *)
From Coq Require Import Reals.
From mathcomp Require Import all_ssreflect all_algebra.
From Verif Require Import BaseMx SpecKalman SpecFilter SpecBls.
Set Implicit Arguments.
Unset Strict Implicit.
Unset Printing Implicit Defensive.
Import GRing.Theory.
Local Open Scope ring_scope.

(** [xs] is a stationary point of the weighted cost of y - h x. *)
Definition stationary m n (W : 'M[R]_m) (h : 'cV[R]_n -> 'cV[R]_m) (Hf : 'cV[R]_n -> 'M[R]_(m, n)) (y : 'cV[R]_m) (xs : 'cV[R]_n) : Prop :=
  (Hf xs)^T *m W *m (y - h xs) = 0.

(** Within rho of xs: the weighted linearisation stretches every vector by s at
    least, the linearisation error is quadratic with constant L, and the
    residual left at xs is nearly orthogonal to the linearisation. *)
Definition tame m n (W : 'M[R]_m) (h : 'cV[R]_n -> 'cV[R]_m) (Hf : 'cV[R]_n -> 'M[R]_(m, n)) (y : 'cV[R]_m) (xs : 'cV[R]_n) (s L sg rho : R) : Prop :=
  forall x : 'cV[R]_n, Rle (len (x - xs)) rho ->
  (forall v : 'cV[R]_n, Rle (Rmult (Rmult s s) (sq v)) (qf W (Hf x *m v))) /\
  Rle (sqrt (qf W (h xs - (h x + Hf x *m (xs - x))))) (Rmult (Rdiv L 2) (sq (x - xs))) /\
  Rle (len ((Hf x)^T *m W *m (y - h xs))) (Rmult sg (len (x - xs))).

(** The contraction factor on that ball. *)
Local Open Scope R_scope.
Definition shrink (s L sg rho : R) : R := sg / (s * s) + L / (2 * s) * rho.
