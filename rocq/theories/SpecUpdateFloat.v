(** Sizes in which the error of a measurement update is measured. *)
From Coq Require Import Reals.
From mathcomp Require Import all_ssreflect all_algebra.
From Verif Require Import Base BaseMx SpecFloatOps.
Set Implicit Arguments.
Unset Strict Implicit.
Unset Printing Implicit Defensive.
Import GRing.Theory.
Local Open Scope ring_scope.

(** About 1e-308, the underflow threshold: the absolute error that rounding may
    add, over the relative one. *)
Definition tiny64 : R := Rdiv eta64 u64.
(** |A| |B| entry by entry, raised by the underflow threshold. *)
Definition size_mul m k n (A : 'M[R]_(m, k)) (B : 'M[R]_(k, n)) : 'M[R]_(m, n) := map_mx Rabs A *m map_mx Rabs B + const_mx tiny64.
Section Sizes.
Variables (n m : nat) (P : 'M[R]_n) (H : 'M[R]_(m, n)) (Rk : 'M[R]_m) (K : 'M[R]_(n, m)).
(** 1 + |K| |H| *)
Definition size_A : 'M[R]_n := 1%:M + size_mul K H.
(** (1 + |K||H|) |P| (1 + |K||H|)^T + |K| |R| |K|^T *)
Definition update_size : 'M[R]_n := size_mul (size_mul size_A P) size_A^T + size_mul (size_mul K Rk) K^T.
(** |x| + |K| (|z| + |H| |x|) *)
Definition state_size (x : 'cV[R]_n) (z : 'cV[R]_m) : 'cV[R]_n := map_mx Rabs x + size_mul K (map_mx Rabs z + size_mul H x).
(** |H| |P| |H|^T + |R| *)
Definition innov_size : 'M[R]_m := size_mul (size_mul H P) H^T + map_mx Rabs Rk.
End Sizes.
