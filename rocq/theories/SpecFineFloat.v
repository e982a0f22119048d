(** Hypotheses and sizes of the theorems on fine alignment in double arithmetic. *)
From Coq Require Import Reals.
From Flocq Require Import Core.
From mathcomp Require Import all_ssreflect all_algebra.
From Verif Require Import Base BaseMx SpecFloatOps SpecUpdateFloat.
Set Implicit Arguments.
Unset Strict Implicit.
Unset Printing Implicit Defensive.
Import GRing.Theory.
Local Open Scope ring_scope.

(** Between 2^-300 and 2^300, so that no product of three underflows. *)
Definition ordinary (d : R) : Prop := Rle (bpow radix2 (-300)) d /\ Rle d (bpow radix2 300).
(** A function of the library errs by at most two units in the last place. *)
Definition lib_ok (f g : R -> R) : Prop := forall x, Rle (Rabs (Rminus (f x) (g x))) (Rplus (Rmult (Rmult 2 u64) (Rabs (g x))) eta64).
(** Sizes of the entries of the transition matrix, raised by the underflow
    threshold. *)
Definition phi_size (wE rad : R) (Phi : 'M[R]_8) : 'M[R]_8 := map_mx Rabs Phi + const_mx (Rmult (Rplus (Rplus 1 (Rabs wE)) (Rinv (Rabs rad))) tiny64).
