(** Model of the mean sidereal time of src/util/Rotations.cpp with every
    operation rounded.  No proofs here. *)
From Coq Require Import Reals.
From Verif Require Import Base ModelDate.
Open Scope R_scope.

(** Rotations.cpp 608-614.  [rnd] rounds the result of an operation and the
    constants that are not exact in binary; floor is exact. *)
Definition gmsTime_f (rnd : R -> R) (Mjd_Ut1 : R) : outcome R :=
  let secs := 86400 in
  let mjd0 := Rfloor Mjd_Ut1 in
  let Ut1 := rnd (secs * rnd (Mjd_Ut1 - mjd0)) in
  let t0 := rnd (rnd (mjd0 - 51544.5) / 36525) in
  let t := rnd (rnd (Mjd_Ut1 - 51544.5) / 36525) in
  let gmst := rnd (rnd (rnd (rnd 24110.54841 + rnd (rnd 8640184.812866 * t0)) + rnd (rnd 1.002737909350795 * Ut1))
              + rnd (rnd (rnd (rnd 0.093104 - rnd (rnd 0.0000062 * t)) * t) * t)) in
  Ret (rnd (rnd (2 * rnd PI) * rnd (rnd (gmst / secs) - Rfloor (rnd (gmst / secs))))).

(** Rotations.cpp 184 and 252: the UT1 date from the UTC date and UT1-UTC in seconds. *)
Definition mjdUt1_f (rnd : R -> R) (mjdUtc Ut1_Utc : R) : R := rnd (mjdUtc + rnd (Ut1_Utc / 86400)).
