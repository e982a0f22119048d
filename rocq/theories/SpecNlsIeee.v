(** Words of the theorems about NaN and infinities in least squares. *)
From Coq Require Import Reals ZArith List Bool.
From Flocq Require Import Core IEEE754.BinarySingleNaN IEEE754.Binary IEEE754.Bits.
From Verif Require Import ModelDate.
Import ListNotations.

Notation nan64 := (Binary.is_nan 53 1024).
Notation fin64 := (Binary.is_finite 53 1024).
(** Infinite or NaN. *)
Definition inf64 (x : binary64) : bool := negb (fin64 x).
(** Some entry has the property. *)
Definition has (P : binary64 -> bool) (v : list binary64) : Prop := exists x, In x v /\ P x = true.
Definition all_finite (v : list binary64) : Prop := forall x, In x v -> fin64 x = true.
(** At most, in the comparison of doubles; false if one is NaN. *)
Definition le64 (x y : binary64) : bool := match Binary.Bcompare 53 1024 x y with Some Lt | Some Eq => true | _ => false end.

(** The sum of real numbers from left to right, rounded after each addition. *)
Definition rounded_sum (l : list R) : R :=
  match l with [] => 0%R | x :: l' => fold_left (fun s t => rnd64 (s + t)) l' x end.
