(** What the theorems on ecef2Lla ask of std::pow(x, 3) and std::atan2. *)
From Coq Require Import Reals.
From Verif Require Import Base ModelStrapdownFloat SpecFloatOps.
Open Scope R_scope.

(** Cubing with an error of at most two units in the last place. *)
Definition pow3_ok (pow3 : R -> R) : Prop :=
  forall x, Rabs (pow3 x - x * x * x) <= 2 * u64 * Rabs (x * x * x) + eta64.

(** atan2 errs by at most four units of 2^-53 (one unit in the last place of
    pi), is pi or -pi up to that error on the negative x axis, where the sign of
    zero decides, and never exceeds M_PI in size. *)
Definition atan2_ok (F : FloatOps) (f : R -> R -> R) : Prop :=
  (forall y x, y <> 0 \/ 0 < x -> Rabs (f y x - atan2 y x) <= 4 * u64) /\
  (forall x, x < 0 -> Rabs (Rabs (f 0 x) - PI) <= 4 * u64) /\
  (forall y x, Rabs (f y x) <= frnd F PI).
