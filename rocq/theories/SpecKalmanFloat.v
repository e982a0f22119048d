(** What the variance of a filter with one state should be, and the sizes of
    numbers for which the float theorems are stated. *)
From Coq Require Import Reals List.
From Flocq Require Import Core.
From Verif Require Import ModelKalmanFloat.
Import ListNotations.
Open Scope R_scope.

(** Between 2^-50 and 2^50 in size. *)
Definition midrange (x : R) : Prop := bpow radix2 (-50) <= Rabs x <= bpow radix2 50.

(** Variances add up under prediction; inverse variances add up under a
    measurement. *)
Definition variance_step (P : R) (s : step1) : R :=
  match s with
  | Predict1 phi Q => phi * phi * P + Q
  | Update1 _ H Rk => / (/ P + H * H / Rk)
  end.
Definition variance (P : R) (l : list step1) : R := fold_left variance_step l P.

Definition step_ok (s : step1) : Prop :=
  match s with
  | Predict1 phi Q => midrange phi /\ (Q = 0 \/ 0 < Q /\ midrange Q)
  | Update1 _ H Rk => midrange H /\ 0 < Rk /\ midrange Rk
  end.

(** A history in which the true variance stays between 2^-49 and 2^49 and no
    measurement is more than 2^45 times as good as what is already known. *)
Fixpoint calm (V : R) (l : list step1) : Prop :=
  bpow radix2 (-49) <= V <= bpow radix2 49 /\
  match l with
  | [] => True
  | s :: l' => step_ok s /\
      match s with Update1 _ H Rk => H * H * V <= bpow radix2 45 * Rk | Predict1 _ _ => True end /\
      calm (variance_step V s) l'
  end.

(** Numbers as vectors and matrices of size 1. *)
From mathcomp Require Import all_ssreflect all_algebra.
From Verif Require Import BaseMx ModelEigen.
Local Open Scope ring_scope.
Definition v1 (x : R) : dvec := DV (x%:M : 'cV[R]_1).
Definition m1 (x : R) : dmat := DM (x%:M : 'M[R]_1).
