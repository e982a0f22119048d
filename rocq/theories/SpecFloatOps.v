(** What the float theorems ask of the arithmetic: the standard error model of
    binary64, with the constants of round to nearest. *)
From Coq Require Import Reals.
From Flocq Require Import Core.
From Verif Require Import Base BaseVec ModelStrapdownFloat.
Open Scope R_scope.

(** Unit roundoff, 2^-53, and half the smallest subnormal, 2^-1075. *)
Definition u64 : R := bpow radix2 (-53).
Definition eta64 : R := bpow radix2 (-1075).

(** One operation errs by at most [u64] relatively, up to underflow.  An inner
    product errs by at most four roundings of the sum of the absolute values of
    its terms: this covers every order of summation and fused operations.  Sine
    and cosine err by at most two units in absolute terms. *)
Definition float_ok (F : FloatOps) : Prop :=
  (forall x, Rabs (frnd F x - x) <= u64 * Rabs x + eta64) /\
  (forall a b, Rabs (fdot F a b - dot a b) <=
     4 * u64 * (Rabs (vx a * vx b) + Rabs (vy a * vy b) + Rabs (vz a * vz b)) + 8 * eta64) /\
  (forall x, Rabs (fsin F x - sin x) <= 2 * u64) /\
  (forall x, Rabs (fcos F x - cos x) <= 2 * u64).

(** [A] maps every vector within [e] times its length of where [f] maps it. *)
Definition close_to (e : R) (A : mat3) (f : vec3 -> vec3) : Prop :=
  forall v, norm (vsub (mvmul A v) (f v)) <= e * norm v.

(** Squaring with an error of at most two units in the last place. *)
Definition pow2_ok (pow2 : R -> R) : Prop :=
  forall x, Rabs (pow2 x - x * x) <= 2 * u64 * (x * x) + eta64.
