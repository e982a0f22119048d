(** Long histories of filter calls with one measured quantity at a time. *)
From Coq Require Import Reals.
From Flocq Require Import Core.Raux Core.Zaux.
From mathcomp Require Import all_ssreflect all_algebra.
From Verif Require Import Base BaseMx ModelEigen ModelKalman ModelFilterFloat ModelLongFloat SpecKalman SpecFilter.
Set Implicit Arguments.
Unset Strict Implicit.
Unset Printing Implicit Defensive.
Import GRing.Theory.
Local Open Scope ring_scope.

(** The exact call. *)
Definition exact_call n (s : scall n) : op n :=
  match s with SPredict Phi Q => Predict Phi Q | SUpdate z H rho => @Update n 1 (const_mx z) H (const_mx rho) end.
(** Far from overflow and underflow. *)
Definition ordinary (y : R) : Prop := Rle (bpow radix2 (-300)) y /\ Rle y (bpow radix2 300).
Definition sized m n (p : R) (A : 'M[R]_(m, n)) : Prop := forall i j, Rle (Rabs (A i j)) p.
(** The rows of the transition matrix sum to at most [b], in absolute values;
    for a measurement [p (sum |H|)^2 / rho] is at most [g]. *)
Definition sound n (p b g : R) (s : scall n) : Prop :=
  match s with
  | SPredict Phi Q => psd Q /\ forall i, Rle (\sum_j Rabs (Phi i j)) b
  | SUpdate _ H rho => ordinary rho /\ exists a, ordinary a /\ Rle (\sum_j Rabs (H 0 j)) a /\ Rle (Rmult p (Rmult a a)) (Rmult g rho)
  end.
(** The calls are sound and in the exact run the covariances have entries up to
    [p] and are at least [l] times the identity. *)
Fixpoint tame n (p l b g : R) (h : seq (scall n)) (P : 'M[R]_n) : Prop :=
  match h with
  | [::] => sized p P
  | s :: h => sized p P /\ sound p b g s /\
      forall (x x' : 'cV[R]_n) P', call (exact_call s) (DV x) (DM P) = Ret (true, (DV x', DM P')) -> loewner (l *: 1%:M) P' /\ tame p l b g h P'
  end.
(** In the exact run the estimates stay up to [X], and the measurements within [s]
    standard deviations of what the filter expects. *)
Fixpoint calm n (X s : R) (h : seq (scall n)) (x : 'cV[R]_n) (P : 'M[R]_n) : Prop :=
  match h with
  | [::] => True
  | c :: h => sized X x /\
      (if c is SUpdate z H rho then Rle (Rabs (Rminus z ((H *m x) 0 0))) (Rmult s (sqrt (Rplus ((H *m P *m H^T) 0 0) rho))) else True) /\
      forall x' P', call (exact_call c) (DV x) (DM P) = Ret (true, (DV x', DM P')) -> calm X s h x' P'
  end.
