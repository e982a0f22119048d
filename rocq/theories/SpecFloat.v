(** Specification vocabulary for IEEE-754 doubles. *)
From Coq Require Import Reals ZArith.
From Flocq Require Import IEEE754.Binary IEEE754.Bits.
(** Real value (0 for NaN and infinities), finiteness and NaN. *)
Definition rval (x : binary64) : R := B2R 53 1024 x.
Definition finite64 (x : binary64) : Prop := is_finite 53 1024 x = true.
Definition nan64 (x : binary64) : Prop := is_nan 53 1024 x = true.
Definition inf64 (s : bool) : binary64 := B754_infinity 53 1024 s.
