(** Theorem C166, continued: linear least squares. *)
From Coq Require Import Reals ZArith Lia.
From Flocq Require Import Core.
From mathcomp Require Import all_ssreflect all_algebra.
From Verif Require Import Base BaseMx ModelDate ModelFilterFloat ModelBlsFloat SpecOverflow ProofOverflow20.
Set Implicit Arguments.
Unset Strict Implicit.
Unset Printing Implicit Defensive.
Import GRing.Theory.
Local Open Scope ring_scope.
Local Arguments Z.pow : simpl never.

(** Any size: all entries up to 2^200, and a solver that gives the same solution,
    up to 2^200, for the normal equations of binary64. *)
Theorem C166_least_squares_never_overflow : forall r, binary64_in_range r -> forall m n (y : 'cV[R]_m) (H : 'M[R]_(m, n)) (solve solve' : 'M[R]_n -> 'cV[R]_n -> outcome 'cV[R]_n),
  Z.le (Z.of_nat n) (Z.pow 2 20) -> Z.le (Z.of_nat m) (Z.pow 2 20) ->
  (forall i, Rle (Rabs (y i ord0)) (bpow radix2 200)) -> (forall i j, Rle (Rabs (H i j)) (bpow radix2 200)) ->
  (let A := mul_f (@dot_loop rnd64) H^T H in let b := mul_f (@dot_loop rnd64) H^T y in
   solve' A b = solve A b /\ forall x, solve A b = Ret x -> forall i, Rle (Rabs (x i ord0)) (bpow radix2 200)) ->
  unweighted_f r (@dot_loop r) solve' y H = unweighted_f rnd64 (@dot_loop rnd64) solve y H.
Proof. move=> r Hr m n y H solve solve' Hn Hm. exact: unweighted_same. Qed.
Print Assumptions C166_least_squares_never_overflow.

Theorem C166_weighted_least_squares_never_overflow : forall r, binary64_in_range r ->
  forall m n (y : 'cV[R]_m) (H : 'M[R]_(m, n)) (W : 'M[R]_m) (solve solve' : 'M[R]_n -> 'cV[R]_n -> outcome 'cV[R]_n),
  Z.le (Z.of_nat n) (Z.pow 2 20) -> Z.le (Z.of_nat m) (Z.pow 2 20) ->
  (forall i, Rle (Rabs (y i ord0)) (bpow radix2 200)) -> (forall i j, Rle (Rabs (H i j)) (bpow radix2 200)) -> (forall i j, Rle (Rabs (W i j)) (bpow radix2 200)) ->
  (let A := mul_f (@dot_loop rnd64) (mul_f (@dot_loop rnd64) H^T W) H in let b := mul_f (@dot_loop rnd64) (mul_f (@dot_loop rnd64) H^T W) y in
   solve' A b = solve A b /\ forall x, solve A b = Ret x -> forall i, Rle (Rabs (x i ord0)) (bpow radix2 200)) ->
  weighted_f r (@dot_loop r) solve' y H W = weighted_f rnd64 (@dot_loop rnd64) solve y H W.
Proof. move=> r Hr m n y H W solve solve' Hn Hm. exact: weighted_same. Qed.
Print Assumptions C166_weighted_least_squares_never_overflow.

(** One unknown, the division included: entries up to 2^40, and one row of at
    least 2^-20. *)
Theorem C166_least_squares_one_unknown : forall r m (y : 'cV[R]_m) (H : 'M[R]_(m, 1)), binary64_in_range r -> Z.le (Z.of_nat m) (Z.pow 2 20) ->
  (forall i, Rle (Rabs (y i ord0)) (bpow radix2 40)) -> (forall i j, Rle (Rabs (H i j)) (bpow radix2 40)) -> (exists i, Rle (bpow radix2 (Zneg 20)) (Rabs (H i ord0))) ->
  unweighted_f r (@dot_loop r) (solve1_f r) y H = unweighted_f rnd64 (@dot_loop rnd64) (solve1_f rnd64) y H.
Proof. exact: unweighted1_same'. Qed.
Print Assumptions C166_least_squares_one_unknown.

(** One unknown with weights: a normal matrix of at least 2^-40. *)
Theorem C166_weighted_least_squares_one_unknown : forall r m (y : 'cV[R]_m) (H : 'M[R]_(m, 1)) (W : 'M[R]_m), binary64_in_range r -> Z.le (Z.of_nat m) (Z.pow 2 20) ->
  (forall i, Rle (Rabs (y i ord0)) (bpow radix2 40)) -> (forall i j, Rle (Rabs (H i j)) (bpow radix2 40)) -> (forall i j, Rle (Rabs (W i j)) (bpow radix2 40)) ->
  Rle (bpow radix2 (Zneg 40)) (Rabs (mul_f (@dot_loop rnd64) (mul_f (@dot_loop rnd64) H^T W) H ord0 ord0)) ->
  weighted_f r (@dot_loop r) (solve1_f r) y H W = weighted_f rnd64 (@dot_loop rnd64) (solve1_f rnd64) y H W.
Proof. exact: weighted1_same. Qed.
Print Assumptions C166_weighted_least_squares_one_unknown.

Example C166_least_squares_case : Rle (bpow radix2 (Zneg 40)) (Rabs (mul_f (@dot_loop rnd64) (const_mx R1 : 'M[R]_1)^T (const_mx R1 : 'M[R]_1) ord0 ord0)) /\
  (forall i, Rle (Rabs ((const_mx (IZR 3) : 'cV[R]_1) i ord0)) (bpow radix2 40)).
Proof. exact: bls_case. Qed.
