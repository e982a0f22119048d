(** What the rounding errors of weighted nonlinear least squares are measured against. *)
From Coq Require Import Reals.
From mathcomp Require Import all_ssreflect all_algebra.
From Verif Require Import Base BaseMx ModelFilterFloat ModelBlsFloat SpecFloatOps SpecKalman SpecFilter SpecBls SpecUpdateFloat SpecBlsFloat.
Set Implicit Arguments.
Unset Strict Implicit.
Unset Printing Implicit Defensive.
Import GRing.Theory.
Local Open Scope ring_scope.

(** Length in the weights. *)
Definition wlen m (W : 'M[R]_m) (v : 'cV[R]_m) : R := sqrt (qf W v).
(** As [tame_f] of SpecNlsFloat.v, lengths of measurements taken in the weights
    [W].  [q] compares the sizes of the terms of the weighted products with their
    results; the residuals, in absolute values with tiny64 added, are at most [Y]
    long, and so is every vector with smaller entries. *)
Definition tame_w m n (W : 'M[R]_m) (q : R) (hF : 'cV[R]_n -> 'cV[R]_m) (HF : 'cV[R]_n -> 'M[R]_(m, n)) (y hs : 'cV[R]_m) (xs : 'cV[R]_n) (s l t0 t1 g0 g1 Y rho : R) : Prop :=
  forall x : 'cV[R]_n, Rle (len (x - xs)) rho ->
  let A := (HF x)^T *m W *m HF x in
  let z := map_mx Rabs (y - hF x) + const_mx tiny64 in
  [/\ (forall v : 'cV[R]_n, Rle (Rmult s (len v)) (wlen W (HF x *m v))) /\ apart l A /\ (forall i, Rlt 0 (A i i)),
      (forall i j, Rle (size_mul (size_mul (HF x)^T W) (HF x) i j) (Rmult q (Rmult (sqrt (A i i)) (sqrt (A j j))))) /\
      (forall i, Rle (size_mul (size_mul (HF x)^T W) z i 0) (Rmult q (Rmult (sqrt (A i i)) Y))),
      Rle (wlen W (hs - (hF x + HF x *m (xs - x)))) (Rplus t0 (Rmult t1 (len (x - xs)))),
      Rle (len ((HF x)^T *m W *m (y - hs))) (Rplus g0 (Rmult g1 (len (x - xs)))) &
      forall v : 'cV[R]_m, (forall i, Rle (Rabs (v i 0)) (z i 0)) -> Rle (wlen W v) Y].
(** The same for weights on the diagonal, where the conditions on the sizes of
    terms are conditions about underflow alone. *)
Definition tame_d m n (W : 'M[R]_m) (hF : 'cV[R]_n -> 'cV[R]_m) (HF : 'cV[R]_n -> 'M[R]_(m, n)) (y hs : 'cV[R]_m) (xs : 'cV[R]_n) (s l t0 t1 g0 g1 Y rho : R) : Prop :=
  forall x : 'cV[R]_n, Rle (len (x - xs)) rho ->
  let A := (HF x)^T *m W *m HF x in
  let z := map_mx Rabs (y - hF x) + const_mx tiny64 in
  [/\ (forall v : 'cV[R]_n, Rle (Rmult s (len v)) (wlen W (HF x *m v))) /\ apart l A,
      (forall i j, Rle (Rmult tiny64 (Rplus 1 (\sum_k Rabs (HF x k j)))) (A i i)) /\
      (forall i, Rle (Rmult tiny64 (Rplus 1 (\sum_k z k 0))) (A i i)) /\ Rle (Rmult tiny64 (Rplus 1 (\sum_k z k 0))) (Rmult Y Y),
      Rle (wlen W (hs - (hF x + HF x *m (xs - x)))) (Rplus t0 (Rmult t1 (len (x - xs)))),
      Rle (len ((HF x)^T *m W *m (y - hs))) (Rplus g0 (Rmult g1 (len (x - xs)))) &
      Rle (wlen W z) Y].
(** The solver returns, with backward error [sv], for the systems that arise in the ball. *)
Definition solves_w r dot m n (solve : 'M[R]_n -> 'cV[R]_n -> outcome 'cV[R]_n) (W : 'M[R]_m) (hF : 'cV[R]_n -> 'cV[R]_m) (HF : 'cV[R]_n -> 'M[R]_(m, n)) (y : 'cV[R]_m) (xs : 'cV[R]_n) (rho sv : R) : Prop :=
  forall x : 'cV[R]_n, Rle (len (x - xs)) rho ->
  let A := wnormal_f dot (HF x) W in let b := wrhs_f dot (HF x) W (map_mx r (y - hF x)) in
  exists c, solve A b = Ret c /\ solved sv A b c.
