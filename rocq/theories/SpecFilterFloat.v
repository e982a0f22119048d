(** What the float theorems about filters of any size ask of the arithmetic. *)
From Coq Require Import Reals.
From mathcomp Require Import all_ssreflect all_algebra.
From Verif Require Import Base BaseMx ModelFilterFloat SpecFloatOps.
Set Implicit Arguments.
Unset Strict Implicit.
Unset Printing Implicit Defensive.
Import GRing.Theory.
Local Open Scope ring_scope.

(** Up to a million terms: a little over [k + 1] roundings of the sum of the
    absolute values of the terms, and what underflow may add. *)
Definition dot_ok (dot : dot_fun) : Prop := forall k (a b : 'I_k -> R), Rle (INR k) 1000000 ->
  Rle (Rabs (Rminus (dot k a b) (\sum_i a i * b i)))
      (Rplus (Rmult (Rmult (Rdiv 101 100) (Rmult (INR k + 1) u64)) (\sum_i Rabs (a i * b i))) (Rmult (3 * INR k) eta64)).
Definition rnd_ok (r : R -> R) : Prop := forall x, Rle (Rabs (Rminus (r x) x)) (Rplus (Rmult u64 (Rabs x)) eta64).

(** Entry by entry, the product |Phi| |P| |Phi|^T. *)
Definition sizes n (Phi P : 'M[R]_n) : 'M[R]_n := map_mx Rabs Phi *m map_mx Rabs P *m (map_mx Rabs Phi)^T.
(** The sum of the absolute values of a row. *)
Definition row_size n (Phi : 'M[R]_n) j : R := \sum_l Rabs (Phi j l).
(** A matrix of two rows and two columns. *)
Definition mx2 (a b c d : R) : 'M[R]_2 := \matrix_(i, j) if i == 0 then if j == 0 then a else b else if j == 0 then c else d.
