(** What "no overflow" means.  In binary64 an operation with exact result x
    overflows when the rounding of x, computed without a bound on the exponent,
    is 2^1024 or more in absolute value. *)
From Coq Require Import Reals.
From Flocq Require Import Core.
From Verif Require Import Base BaseVec ModelDate ModelStrapdownFloat.
Open Scope R_scope.

(** A rounding that is binary64's where it does not overflow and anything
    elsewhere.  A computation whose result is the same for all such roundings
    does not depend on any operation that overflows. *)
Definition binary64_in_range (r : R -> R) : Prop :=
  forall x, Rabs (rnd64 x) < bpow radix2 1024 -> r x = rnd64 x.

(** The operations of [binary64_ops] with the rounding [r]. *)
Definition ops_of (r : R -> R) : FloatOps :=
  FOps r
    (fun a b => r (r (r (vx a * vx b) + r (vy a * vy b)) + r (vz a * vz b)))
    (fun x => r (sin x)) (fun x => r (cos x)).
