(** When the products of a weighted least-squares step are computed well. *)
From Coq Require Import Reals.
From mathcomp Require Import all_ssreflect all_algebra.
From Verif Require Import Base BaseMx ModelFilterFloat ModelBlsFloat SpecFloatOps SpecKalman SpecFilter SpecBls SpecUpdateFloat SpecBlsFloat SpecWnlsFloat.
Set Implicit Arguments.
Unset Strict Implicit.
Unset Printing Implicit Defensive.
Import GRing.Theory.
Local Open Scope ring_scope.

(** A linearisation [H] and a residual [d] with weights [W]: the columns are
    independent by the margin [l]; [q] compares the sizes of the terms of the
    weighted products with their results; the residual, in absolute values with
    tiny64 added, is at most [Y] long, and so is every vector with smaller entries. *)
Definition sound_at m n (W : 'M[R]_m) (q l Y : R) (H : 'M[R]_(m, n)) (d : 'cV[R]_m) : Prop :=
  let A := H^T *m W *m H in
  let z := map_mx Rabs d + const_mx tiny64 in
  [/\ apart l A /\ (forall i, Rlt 0 (A i i)),
      (forall i j, Rle (size_mul (size_mul H^T W) H i j) (Rmult q (Rmult (sqrt (A i i)) (sqrt (A j j))))),
      (forall i, Rle (size_mul (size_mul H^T W) z i 0) (Rmult q (Rmult (sqrt (A i i)) Y))) &
      forall v : 'cV[R]_m, (forall i, Rle (Rabs (v i 0)) (z i 0)) -> Rle (wlen W v) Y].
(** The same for weights on the diagonal: nothing underflows. *)
Definition sound_diag m n (W : 'M[R]_m) (l Y : R) (H : 'M[R]_(m, n)) (d : 'cV[R]_m) : Prop :=
  let A := H^T *m W *m H in
  let z := map_mx Rabs d + const_mx tiny64 in
  [/\ apart l A,
      (forall i j, Rle (Rmult tiny64 (Rplus 1 (\sum_k Rabs (H k j)))) (A i i)),
      (forall i, Rle (Rmult tiny64 (Rplus 1 (\sum_k z k 0))) (A i i)) /\ Rle (Rmult tiny64 (Rplus 1 (\sum_k z k 0))) (Rmult Y Y) &
      Rle (wlen W z) Y].
