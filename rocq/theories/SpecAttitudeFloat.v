(** Notions used by the rounding theorems about attitude conversions. *)
From Coq Require Import Reals List.
From Verif Require Import Base BaseVec.
Import ListNotations.
Open Scope R_scope.

(** Every entry of [A] is within [e] of that of [B]. *)
Definition entries_within (e : R) (A B : mat3) : Prop :=
  forall i j, (i < 3)%nat -> (j < 3)%nat -> Rabs (mx_at (MX_of_mat3 A) i j - mx_at (MX_of_mat3 B) i j) <= e.

(** One component of a quaternion has a square larger than that of each other
    component by more than [m]. *)
Definition dominant (m : R) (q : list R) : Prop :=
  exists i, (i < 4)%nat /\ forall j, (j < 4)%nat -> j <> i -> nth j q 0 * nth j q 0 + m < nth i q 0 * nth i q 0.

(** Componentwise error. *)
Definition list_within (e : R) (l m : list R) : Prop := Forall2 (fun x y => Rabs (x - y) <= e) l m.
