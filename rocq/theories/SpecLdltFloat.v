(** Arithmetic without underflow, and a - sum x_j y_j in some order. *)
From Coq Require Import Reals.
From Verif Require Import SpecFloatOps.
Open Scope R_scope.

(** Every result is correct up to the factor 1 + 2^-53. *)
Definition rel_ok (r : R -> R) : Prop := forall x, Rabs (r x - x) <= u64 * Rabs x.
(** Finite sums. *)
Fixpoint sum (f : nat -> R) (k : nat) : R := match k with O => 0 | S k => sum f k + f k end.
(** Each of the k + 1 terms takes part in at most k + 2 roundings. *)
Definition msub_ok (msub : R -> nat -> (nat -> R) -> (nat -> R) -> R) : Prop := forall a k x y, INR k <= 1000000 ->
  Rabs (msub a k x y - (a - sum (fun j => x j * y j) k)) <= 101 / 100 * ((INR k + 2) * u64) * (Rabs a + sum (fun j => Rabs (x j * y j)) k).
