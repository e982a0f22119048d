(** Theorem C156: the unscented measurement update in double arithmetic. *)
From Coq Require Import Reals Lra.
From Flocq Require Import Core.
From mathcomp Require Import all_ssreflect all_algebra.
From Verif Require Import Base BaseMx ModelEigen ModelKalman ModelDate ModelLdltFloat ModelLuFloat ModelLuMx ModelFilterFloat ModelUkfFloat SpecFloatOps SpecKalman SpecBls SpecLdltFloat SpecFilterFloat SpecUpdateFloat SpecLuFloat SpecUkfFloat SpecUkfUpdate
  ProofLdlt8 ProofUkfFloat3 ProofUkfLu ProofUkfNeg ProofUkfNeg2 ProofUkfLuCase.
Set Implicit Arguments.
Unset Strict Implicit.
Unset Printing Implicit Defensive.
Import GRing.Theory.
Local Open Scope ring_scope.

(** C156: with nonnegative weights of sum one, if the measurement covariance [S]
    keeps at least the share [s] of every vector and [s] is above the rounding
    errors, the update returns where the exact one does, and its gain, mean and
    covariance are near the exact ones.  [M] bounds the entries of S and [phi]
    their errors. *)
Theorem C156_update : forall r dot msub N n m (W : 'cV[R]_(2 * n + 1)) (Y : 'M[R]_(n, 2 * n + 1)) (x x1 : 'cV[R]_n) (Z : 'M[R]_(m, 2 * n + 1)) (Rk : 'M[R]_m) (P P1 : 'M[R]_n) (z : 'cV[R]_m) s M phi,
  rel_ok r -> dot_ok dot -> msub_ok msub -> Rle (INR N) 1000000 -> (m <= N)%N -> (2 * n + 1 <= N)%N -> distribution W -> symmetric Rk ->
  let zh := SpecKalman.mean (weights W) (points Z) in let S := meas_cov W Z Rk in let T := cross_cov W Y x Z in
  keeps s S -> Rlt 0 s -> (forall i j, Rle (Rabs (S i j)) M) -> Rle 0 M -> (forall i j, Rle (meas_err W Z Rk i j) phi) -> Rle 0 phi ->
  let v := Rmult (INR N + 1) u64 in
  let e := Rmult 2 (Rmult (INR m) (Rplus (Rmult (Rmult 7 (Rmult (INR m + 2) u64)) (Rmult (pow 2 m) (Rplus M phi))) phi)) in Rlt e s ->
  let tE i := \sum_l cross_err W Y x Z i l in
  let dK i := Rplus (Rplus (Rmult (Rmult 3 v) (Rplus (Rmult (Rdiv 2 s) (Rplus (row_sum T i) (tE i))) tiny64)) (Rmult (Rdiv 2 s) (tE i))) (Rmult (Rdiv e (Rmult s s)) (row_sum T i)) in
  exists (xe : 'cV[R]_n) (Pe : 'M[R]_n) (xf : 'cV[R]_n) (Pf : 'M[R]_n) (K : 'M[R]_(n, m)),
  filterUkfUpdate (DV x) (DM P) (DM Y) (DV W) (DM Z) (DV z) (DM Rk) (DV x1) (DM P1) = Ret (true, (DV xe, DM Pe)) /\
  filterUkfUpdate_f r dot (lu_mx r msub) x P Y W Z z Rk = Ret (xf, Pf) /\
  (forall i l, Rle (Rabs (Rminus (K i l) ((T *m invmx S) i l))) (dK i)) /\
  (forall i, Rle (Rabs (Rminus (xf i 0) (xe i 0)))
      (Rplus (Rmult (Rmult 7 v) (Rplus (Rabs (x i 0)) (size_mul K (resid_size W Z z) i 0)))
             (Rplus (\sum_l Rmult (Rabs (K i l)) (slip W Z l)) (Rmult (dK i) (\sum_l Rabs ((z - zh)%R l 0)))))) /\
  (forall i j, Rle (Rabs (Rminus (Pf i j) (Pe i j)))
      (Rplus (Rmult (Rmult 9 v) (Rplus (Rabs (P i j)) (size_mul (size_mul K (meas_size W Z Rk)) K^T i j)))
             (Rplus (Rplus (Rplus (\sum_l Rmult (\sum_k Rmult (Rabs (K i k)) (meas_err W Z Rk k l)) (Rabs (K j l))) (Rmult (dK i) (row_sum T j))) (Rmult (dK j) (row_sum T i)))
                    (Rmult (Rmult (dK i) (dK j)) (\sum_l \sum_k Rabs (S k l)))))).
Proof.
  move=> r dot msub N n m W Y x x1 Z Rk P P1 z s M phi Hr Hd Hs HN Hm Hk D SR zh S T KS s0 SM M0 Hp p0 v e es tE dK.
  exact: (ukf_update_near Hr Hd Hs HN Hm Hk Y x x1 P P1 z D SR KS s0 SM M0 Hp p0 es).
Qed.
Print Assumptions C156_update.

(** Noise of variance at least [s] in every combination of the measurements is
    enough for the condition on S, whatever the points. *)
Theorem C156_noise_is_enough : forall m k (W : 'cV[R]_k) (Z : 'M[R]_(m, k)) (Rk : 'M[R]_m) s,
  distribution W -> Rle 0 s -> (forall y : 'cV[R]_m, Rle (Rmult s (sq y)) (qf Rk y)) -> keeps s (meas_cov W Z Rk).
Proof. exact keeps_meas. Qed.
Print Assumptions C156_noise_is_enough.

(** Without enough noise the variances need not stay positive in doubles, though
    mean and covariance are those of the points and there is some noise. *)
Theorem C156_positive_variance_refuted : ~ forall (W : 'cV[R]_3) (Y : 'M[R]_(1, 3)) (x : 'cV[R]_1) (Z : 'M[R]_(1, 3)) (Rk P : 'M[R]_1) (z xf : 'cV[R]_1) (Pf : 'M[R]_1),
  distribution W -> x = SpecKalman.mean (weights W) (points Y) -> P = cov (weights W) (points Y) -> Rlt 0 (Rk 0 0) ->
  filterUkfUpdate_f rnd64 (@dot_loop rnd64) (lu_mx rnd64 (msub_loop rnd64)) x P Y W Z z Rk = Ret (xf, Pf) -> Rle 0 (Pf 0 0).
Proof.
  move=> H. have [xf [Pf [E V]]] := neg21. have := H w3 y21 0 z21 (const_mx noise21) (const_mx (IZR 2)) 0 xf Pf w3_dist (esym y21_mean) (esym y21_cov) _ E. rewrite mxE V.
  have B := bpow_gt_0 radix2 (-51). have B' : Rlt 0 noise21 by exact: bpow_gt_0. move=> /(_ B') L. lra.
Qed.
Print Assumptions C156_positive_variance_refuted.

(** Three points 2, 5, -1 of weights 1/2, 1/4, 1/4, measured with variance 1. *)
Example C156_case : forall (x1 : 'cV[R]_1) (P1 : 'M[R]_1) (z : 'cV[R]_1), exists (xe xf : 'cV[R]_1) (Pe Pf : 'M[R]_1),
  filterUkfUpdate (DV x2) (DM var1) (DM y3) (DV w3) (DM y3) (DV z) (DM one1) (DV x1) (DM P1) = Ret (true, (DV xe, DM Pe)) /\
  filterUkfUpdate_f rnd53 (@dot_loop rnd53) (lu_mx rnd53 (msub_loop rnd53)) x2 var1 y3 w3 y3 z one1 = Ret (xf, Pf) /\
  Pe 0 0 = Rdiv 9 11 /\ Rle (Rabs (Rminus (Pf 0 0) (Rdiv 9 11))) (Rinv 1000000000).
Proof. exact ukf_case. Qed.
