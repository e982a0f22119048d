(** Histories of the filter with one state in which every prediction adds enough
    noise. *)
From Coq Require Import Reals List.
From Verif Require Import ModelKalmanFloat SpecKalmanFloat.
Import ListNotations.
Open Scope R_scope.

(** Every prediction adds at least [d] times the true variance it carries
    over. *)
Fixpoint fed (d V : R) (l : list step1) : Prop :=
  match l with
  | [] => True
  | s :: l' => match s with Predict1 phi Q => d * (phi * phi * V) <= Q | Update1 _ _ _ => True end /\ fed d (variance_step V s) l'
  end.
(** At most [k] measurements before the first prediction, and at most [m]
    between predictions. *)
Fixpoint spaced1 (m k : nat) (l : list step1) : Prop :=
  match l with
  | [] => True
  | Predict1 _ _ :: l' => spaced1 m m l'
  | Update1 _ _ _ :: l' => match k with O => False | S k' => spaced1 m k' l' end
  end.
