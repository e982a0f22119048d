(** What the rounding errors of nonlinear least squares are measured against. *)
From Coq Require Import Reals.
From mathcomp Require Import all_ssreflect all_algebra.
From Verif Require Import Base BaseMx ModelFilterFloat ModelBlsFloat SpecFloatOps SpecKalman SpecFilter SpecBls SpecUpdateFloat SpecBlsFloat.
Set Implicit Arguments.
Unset Strict Implicit.
Unset Printing Implicit Defensive.
Import GRing.Theory.
Local Open Scope ring_scope.

(** Within [rho] of [xs], where the true model gives [hs]:
    - the computed linearisation stretches every vector by [s] at least, its
      columns, scaled to length one, are independent by the margin [l], and none
      is so short that products underflow;
    - predicting [hs] from [x] with the computed model errs by [t0 + t1 |x - xs|]
      at most;
    - the residual left at [xs] is orthogonal to the computed linearisation but
      for [g0 + g1 |x - xs|];
    - residuals are at most [Y] long. *)
Definition tame_f m n (hF : 'cV[R]_n -> 'cV[R]_m) (HF : 'cV[R]_n -> 'M[R]_(m, n)) (y hs : 'cV[R]_m) (xs : 'cV[R]_n) (s l t0 t1 g0 g1 Y rho : R) : Prop :=
  forall x : 'cV[R]_n, Rle (len (x - xs)) rho ->
  [/\ (forall v : 'cV[R]_n, Rle (Rmult s (len v)) (len (HF x *m v))) /\ apart l ((HF x)^T *m HF x) /\ (forall i, Rle tiny64 (((HF x)^T *m HF x) i i)),
      Rle (len (hs - (hF x + HF x *m (xs - x)))) (Rplus t0 (Rmult t1 (len (x - xs)))),
      Rle (len ((HF x)^T *m (y - hs))) (Rplus g0 (Rmult g1 (len (x - xs)))) &
      Rle (len (y - hF x)) Y].
(** The solver returns, with backward error [sv], for the systems that arise in the ball. *)
Definition solves_in r dot m n (solve : 'M[R]_n -> 'cV[R]_n -> outcome 'cV[R]_n) (hF : 'cV[R]_n -> 'cV[R]_m) (HF : 'cV[R]_n -> 'M[R]_(m, n)) (y : 'cV[R]_m) (xs : 'cV[R]_n) (rho sv : R) : Prop :=
  forall x : 'cV[R]_n, Rle (len (x - xs)) rho ->
  let A := normal_f dot (HF x) in let b := rhs_f dot (HF x) (map_mx r (y - hF x)) in
  exists c, solve A b = Ret c /\ solved sv A b c.

Local Open Scope R_scope.
(** The error of a step is at most [rate] times the error before it plus [noise]. *)
Definition rate (s t1 g1 : R) : R := 101 / 100 * (t1 / s + g1 / (s * s)).
Definition noise (s t0 g0 ec Y X : R) : R := 101 / 100 * (t0 / s + g0 / (s * s)) + 9 * ec * Y / s + 2 * u64 * X.
