(** The latitude/longitude range guards over IEEE-754 doubles, including NaN and
    infinities (Flocq's binary64). *)
From Coq Require Import ZArith.
From Flocq Require Import IEEE754.Binary IEEE754.Bits.

(** M_PI is the double 7074237752028440 * 2^-51 and M_PI / 2.0 is exactly half
    of it. *)
Definition M_PI64 : binary64 := B754_finite 53 1024 false 7074237752028440 (-51) eq_refl.
Definition M_PI_2_64 : binary64 := B754_finite 53 1024 false 7074237752028440 (-52) eq_refl.

(** [x > y] on doubles: false when either operand is NaN. *)
Definition gt64 (x y : binary64) : bool :=
  match Bcompare 53 1024 x y with Some Gt => true | _ => false end.
(** [std::abs] clears the sign bit; its result on NaN is a NaN. *)
Definition abs64 (x : binary64) : binary64 :=
  match x with
  | B754_nan _ _ _ pl H => B754_nan 53 1024 false pl H
  | B754_infinity _ _ _ => B754_infinity 53 1024 false
  | B754_finite _ _ _ m e H => B754_finite 53 1024 false m e H
  | B754_zero _ _ _ => B754_zero 53 1024 false
  end.

(** Rotations.cpp 18-28, 50-60 and 127-137 (the same test three times): true when
    the function goes on to compute its result. *)
Definition latLonGuard (lat lon : binary64) : bool :=
  if gt64 (abs64 lat) M_PI_2_64 then false
  else if gt64 (abs64 lon) M_PI64 then false
  else true.
