(** What the theorems on dcm2Euler speak of. *)
From Coq Require Import Reals.
From Verif Require Import Base BaseVec SpecFloatOps.
Open Scope R_scope.

(** The arc functions err by at most two units of 2^-53 (one unit in the last
    place of pi/2). *)
Definition atan_ok (f : R -> R) : Prop := forall x, Rabs (f x - atan x) <= 2 * u64.
Definition asin_ok (f : R -> R) : Prop := forall x, -1 <= x <= 1 -> Rabs (f x - asin x) <= 2 * u64.

(** The matrix whose rows are the axes of a body with roll [r], pitch [p] and
    heading [h], in coordinates x forward, y right, z down. *)
Definition axes_of (r p h : R) : mat3 :=
  M3 (cos p * cos h) (cos p * sin h) (- sin p)
     (sin r * sin p * cos h - cos r * sin h) (sin r * sin p * sin h + cos r * cos h) (sin r * cos p)
     (cos r * sin p * cos h + sin r * sin h) (cos r * sin p * sin h - sin r * cos h) (cos r * cos p).

(** Every entry of [A] is within [e] of the entry of [B]. *)
Definition entries_within (e : R) (A B : mat3) : Prop :=
  Rabs (m11 A - m11 B) <= e /\ Rabs (m12 A - m12 B) <= e /\ Rabs (m13 A - m13 B) <= e /\
  Rabs (m21 A - m21 B) <= e /\ Rabs (m22 A - m22 B) <= e /\ Rabs (m23 A - m23 B) <= e /\
  Rabs (m31 A - m31 B) <= e /\ Rabs (m32 A - m32 B) <= e /\ Rabs (m33 A - m33 B) <= e.
