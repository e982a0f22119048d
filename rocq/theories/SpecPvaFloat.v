(** What the rounded error dynamics are compared with: vocabulary. *)
From Coq Require Import Reals List.
From Flocq Require Import Core.
From Verif Require Import Base BaseVec SpecFloatOps ModelStrapdownFloat.
Open Scope R_scope.

(** std::tan and std::pow(x, 0.5) to two units in the last place. *)
Definition tan_ok (tanf : R -> R) : Prop := forall x, cos x <> 0 -> Rabs (tanf x - tan x) <= 2 * u64 * Rabs (tan x) + eta64.
Definition powh_ok (powh : R -> R) : Prop := forall x, 0 <= x -> Rabs (powh x - sqrt x) <= 2 * u64 * sqrt x + eta64.

(** Row [i] of the matrix [A'] differs from that of [A] by at most [t i] units
    of 2^-53 in every entry. *)
Definition rows_within (t : nat -> R) (A' A : MatrixXd) : Prop :=
  mx_rows A' = mx_rows A /\ mx_cols A' = mx_cols A /\
  forall i j, (i < mx_rows A)%nat -> (j < mx_cols A)%nat -> Rabs (mx_at A' i j - mx_at A i j) <= t i * u64.

(** Attitude rows and horizontal rows: 2.  The row of the vertical velocity,
    whose entries reach 1e5: 7e6.  The rest is exact. *)
Definition ned_F_tol (i : nat) : R := if Nat.ltb i 5 then 2 else if Nat.eqb i 5 then 7000000 else 0.
Definition ned_G_tol (i : nat) : R := if Nat.ltb i 3 then 0 else if Nat.ltb i 5 then 1 / 100 else if Nat.eqb i 5 then 60 else 0.
(** Every entry of a matrix is at most [b]. *)
Definition cells_le (b : R) (A : mat3) : Prop :=
  Rabs (m11 A) <= b /\ Rabs (m12 A) <= b /\ Rabs (m13 A) <= b /\ Rabs (m21 A) <= b /\ Rabs (m22 A) <= b /\ Rabs (m23 A) <= b /\
  Rabs (m31 A) <= b /\ Rabs (m32 A) <= b /\ Rabs (m33 A) <= b.

(** The Earth-fixed error dynamics: rows 3 to 5 hold sums of products. *)
Definition ecef_F_tol (W g : R) (i : nat) : R := if Nat.ltb i 3 then 0 else if Nat.ltb i 6 then 2 * W + 16 * (W * W) + 2 * g + 1 / 1000000000000000 else 0.
