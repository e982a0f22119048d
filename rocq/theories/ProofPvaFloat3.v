(** Error analysis of the error dynamics: the two functions. *)
From Coq Require Import Reals ZArith List Lra Lia Psatz.
From Flocq Require Import Core.
From Verif Require Import Base BaseVec SpecPva ModelGravity ModelNavUtils ModelPva ModelStrapdownFloat ModelFramesFloat ModelGravityFloat ModelCoarseFloat ModelPvaFloat SpecFloatOps SpecPvaFloat
  ProofVec ProofPi ProofFrames ProofPva ProofStrapdownFloat ProofFramesFloat ProofGravityFloat ProofNavFloat ProofPvaFloat ProofPvaFloat2.
Import ListNotations.
Open Scope R_scope.

Section Big.
Variable F : FloatOps. Hypothesis HF : float_ok F.
Let r := frnd F.
Ltac bnd := lazymatch goal with
  | H : ap ?x ?y _ _ |- ap ?x ?y _ _ => exact H
  | |- ap (frnd _ _) _ _ _ => eapply (ap_rnd F HF); bnd
  | |- ap (r _) _ _ _ => eapply (ap_rnd F HF); bnd
  | |- ap (_ * _) (_ * _) _ _ => eapply ap_mul; [bnd|bnd]
  | |- ap (_ + _) (_ + _) _ _ => eapply ap_add; [bnd|bnd]
  | |- ap (_ - _) (_ - _) _ _ => eapply ap_sub; [bnd|bnd]
  | |- ap (- _) (- _) _ _ => eapply ap_opp; bnd
  | |- ap ?x ?x _ _ => apply ap_const; lra end.
Ltac au := eapply ap_le; [bnd| |]; num.

Lemma ap_tan tanf lat : tan_ok tanf -> Rabs lat <= 3 / 2 -> ap (tanf lat) (tan lat) 30 15.
Proof.
  intros T L. assert (A : ap lat lat 10 (3 / 2)) by (eapply ap_le; [apply (ap_exact lat); exact L|lra|lra]). pose proof (c_low 0 ltac:(lra) lat lat A) as C.
  assert (B : Rabs (tan lat) <= 1 / (7 / 100)).
  { unfold tan, Rdiv. rewrite Rabs_mult. apply Rmult_le_compat; try apply Rabs_pos; [apply Rabs_le, SIN_bound|]. rewrite Rabs_inv, Rabs_right by lra. apply Rinv_le_contravar; lra. }
  split; [|lra]. eapply Rle_trans; [apply T; lra|]. pose proof eta_u as E. pose proof u64_bounds as U. 
  assert (2 * u64 * Rabs (tan lat) <= 2 * u64 * (1 / (7 / 100))) by (apply Rmult_le_compat_l; lra). lra.
Qed.
Lemma s2c2 lat : Rabs lat <= 3 / 2 -> ap (fsin F (r (2 * lat))) (sin (2 * lat)) 6 1 /\ ap (fcos F (r (2 * lat))) (cos (2 * lat)) 6 1.
Proof.
  intros L. assert (A : ap lat lat 0 (3 / 2)) by (apply ap_exact; exact L). assert (B : ap (r (2 * lat)) (2 * lat) (31 / 10) 3) by au. destruct B as (B & _).
  split; (split; [|apply Rabs_le; first [apply SIN_bound|apply COS_bound]]).
  - pose proof (abs_tri _ _ _ _ _ (proj1 (proj2 (proj2 HF)) (r (2 * lat))) (Rle_trans _ _ _ (sin_lip _ _) B)). pose proof u64_bounds. lra.
  - pose proof (abs_tri _ _ _ _ _ (proj2 (proj2 (proj2 HF)) (r (2 * lat))) (Rle_trans _ _ _ (cos_lip _ _) B)). pose proof u64_bounds. lra.
Qed.
Variables N' N M' M h : R.
Hypothesis AN : ap N' N 45000000 6450000. Hypothesis N0 : 6370000 <= N.
Hypothesis AM : ap M' M 150000000 6480000. Hypothesis M0 : 6330000 <= M.
Hypothesis Hh : Rabs h <= 110000.
Lemma rad_ap powh : powh_ok powh -> ap (r (powh (r (N' * M')) + h)) (sqrt (N * M) + h) 235000000 6750000 /\ 6180000 <= sqrt (N * M) + h.
Proof.
  intros P. assert (A : ap (r (N' * M')) (N * M) 1350000000000000 41800000000000) by au.
  assert (NU : N <= 6450000) by (destruct AN as (_ & X); apply Rabs_le_inv in X; lra). assert (MU : M <= 6480000) by (destruct AM as (_ & X); apply Rabs_le_inv in X; lra).
  assert (L : 6300000 * 6300000 <= N * M) by (apply Rmult_le_compat; lra). assert (U : N * M <= 6480000 * 6480000) by (apply Rmult_le_compat; lra).
  destruct (ap_sqrt _ _ _ _ 6300000 A) as (Q0 & Q); [lra|lra|lra|num|].
  assert (S1 : 6300000 <= sqrt (N * M)) by (rewrite <- (sqrt_square 6300000) by lra; apply sqrt_le_1_alt; lra).
  assert (S2 : sqrt (N * M) <= 6480000) by (rewrite <- (sqrt_square 6480000) by lra; apply sqrt_le_1_alt; lra).
  assert (B : ap (sqrt (r (N' * M'))) (sqrt (N * M)) 214300000 6480000).
  { eapply apM; [eapply ap_le; [exact Q| |apply Rle_refl]; lra|rewrite Rabs_right; lra]. }
  pose proof (ap_abs _ _ _ _ B) as BA. rewrite Rabs_right in BA by (apply Rle_ge, sqrt_pos).
  assert (C : ap (powh (r (N' * M'))) (sqrt (N * M)) 228000000 6480000).
  { split; [|apply B]. pose proof (abs_tri _ _ _ _ _ (P _ Q0) (proj1 B)) as T. eapply Rle_trans; [exact T|]. pose proof eta_u as E. pose proof u64_bounds as U0.
    assert (2 * u64 * sqrt (r (N' * M')) <= 2 * u64 * 6490000) by (apply Rmult_le_compat_l; [lra|eapply Rle_trans; [exact BA|num]]). lra. }
  assert (D : ap h h 0 110000) by (apply ap_exact; exact Hh). apply Rabs_le_inv in Hh. split; [au|lra].
Qed.
Variables c' c : R. Hypothesis Ac : ap c' c 2 1. Hypothesis c0 : 7 / 100 <= c.
Let p' := r (M' + h). Let q' := r (r (N' + h) * c'). Let p := M + h. Let q := (N + h) * c.
Definition near_D (E : mat3) : Prop :=
  Rabs (m11 E - 1 / p) <= u64 / 500 /\ Rabs (m22 E - 1 / q) <= u64 / 500 /\ Rabs (m33 E - -1) <= 20 * u64 /\
  (let o x := Rabs (x - 0) <= u64 / 1000000000000000000000000 in o (m12 E) /\ o (m13 E) /\ o (m21 E) /\ o (m23 E) /\ o (m31 E) /\ o (m32 E)).
Lemma pq_low : 6200000 <= p /\ 434000 <= q.
Proof. apply Rabs_le_inv in Hh. unfold p, q. split; [lra|]. apply Rle_trans with (6200000 * (7 / 100)); [lra|]. apply Rmult_le_compat; lra. Qed.
Lemma D_ap : exists E, minvc_f F (M3 p' 0 0 0 q' 0 0 0 (-1)) = Ret E /\ near_D E.
Proof.
  pose proof pq_low as (PL & QL). assert (AH : ap h h 0 110000) by (apply ap_exact; exact Hh).
  assert (AP : ap p' p 160000000 6600000) by (unfold p', p; au). assert (AQ : ap q' q 100000000 6600000) by (unfold q', q; au).
  pose proof u64_bounds as U. assert (OH : ap 1 1 0 1) by (apply ap_const; lra).
  destruct (ap_div _ _ _ _ _ _ _ _ 6000000 OH AP) as (P1 & P2); [lra|rewrite Rabs_right; lra|num|].
  destruct (ap_div _ _ _ _ _ _ _ _ 430000 OH AQ) as (Q1 & Q2); [lra|rewrite Rabs_right; lra|num|].
  assert (PR : 1000000 <= p' <= 10000000).
  { destruct AP as (X1 & X2). apply Rabs_le_inv in X1. apply Rabs_le_inv in X2. lra. }
  assert (QR : 400000 <= q' <= 10000000).
  { destruct AQ as (X1 & X2). apply Rabs_le_inv in X1. apply Rabs_le_inv in X2. lra. }
  clearbody p' q' p q.
  destruct (diag_inverse F HF p' q') as (E & E1 & E2 & E3 & E4 & E5 & E6 & E7 & E8 & E9 & E10); [lra|lra|].
  exists E. split; [exact E1|]. destruct P2 as (P2 & _). destruct Q2 as (Q2 & _).
  assert (IP : 1 / p' <= 1 / 1000000) by (unfold Rdiv; rewrite !Rmult_1_l; apply Rinv_le_contravar; lra).
  assert (IQ : 1 / q' <= 1 / 400000) by (unfold Rdiv; rewrite !Rmult_1_l; apply Rinv_le_contravar; lra).
  split; [|split; [|split; [exact E4|cbv beta zeta; rewrite !Rminus_0_r; now repeat split]]].
  - eapply Rle_trans; [exact (abs_tri _ _ _ _ _ E2 P2)|]. assert (20 * u64 * (1 / p') <= 20 * u64 * (1 / 1000000)) by (apply Rmult_le_compat_l; lra). lra.
  - eapply Rle_trans; [exact (abs_tri _ _ _ _ _ E3 Q2)|]. assert (20 * u64 * (1 / q') <= 20 * u64 * (1 / 400000)) by (apply Rmult_le_compat_l; lra). lra.
Qed.
Lemma D_exact : minvc (M3 p 0 0 0 q 0 0 0 (-1)) = Ret (M3 (1 / p) 0 0 0 (1 / q) 0 0 0 (-1)).
Proof.
  pose proof pq_low as (PL & QL). clearbody p q. unfold minvc, mdet. cbn [m11 m12 m13 m21 m22 m23 m31 m32 m33].
  assert (p * q <> 0) by nra. rewrite Rdivc_ok by lra. cbn [bind]. unfold mscale, madj. cbn [m11 m12 m13 m21 m22 m23 m31 m32 m33]. f_equal. f_equal; field; lra.
Qed.
End Big.

(** The product of the inverse with a bounded matrix. *)
Section Prod.
Variable F : FloatOps. Hypothesis HF : float_ok F.
Variables i1 i2 : R. Hypothesis I1 : 0 < i1 <= 1 / 400000. Hypothesis I2 : 0 < i2 <= 1 / 400000.
Variable E : mat3.
Hypothesis E11 : Rabs (m11 E - i1) <= u64 / 500. Hypothesis E22 : Rabs (m22 E - i2) <= u64 / 500. Hypothesis E33 : Rabs (m33 E - -1) <= 20 * u64.
Let o x := Rabs (x - 0) <= u64 / 1000000000000000000000000.
Hypothesis E12 : o (m12 E). Hypothesis E13 : o (m13 E). Hypothesis E21 : o (m21 E). Hypothesis E23 : o (m23 E). Hypothesis E31 : o (m31 E). Hypothesis E32 : o (m32 E).
Lemma dot_near e1 e2 e3 d x y z k : Rabs (e1 - d) <= k -> Rabs (e2 - 0) <= u64 / 1000000000000000000000000 -> Rabs (e3 - 0) <= u64 / 1000000000000000000000000 ->
  Rabs x <= 2 -> Rabs y <= 2 -> Rabs z <= 2 -> Rabs (e1 * x + e2 * y + e3 * z - d * x) <= 2 * k + u64 / 100000000000000000000000 /\
  Rabs (e1 * x) + Rabs (e2 * y) + Rabs (e3 * z) <= 2 * (Rabs d + k) + u64 / 100000000000000000000000.
Proof.
  intros A B C X Y Z. rewrite Rminus_0_r in B, C. pose proof u64_bounds as U. pose proof (Rabs_pos (e1 - d)) as K0. pose proof (Rabs_pos d) as D0.
  assert (P1 : Rabs ((e1 - d) * x) <= k * 2) by (rewrite Rabs_mult; apply Rmult_le_compat; try apply Rabs_pos; lra).
  assert (P2 : Rabs (e2 * y) <= u64 / 1000000000000000000000000 * 2) by (rewrite Rabs_mult; apply Rmult_le_compat; try apply Rabs_pos; lra).
  assert (P3 : Rabs (e3 * z) <= u64 / 1000000000000000000000000 * 2) by (rewrite Rabs_mult; apply Rmult_le_compat; try apply Rabs_pos; lra).
  assert (Q : Rabs e1 <= Rabs d + k) by (replace e1 with (d + (e1 - d)) by ring; eapply Rle_trans; [apply Rabs_triang|lra]).
  assert (P4 : Rabs (e1 * x) <= (Rabs d + k) * 2) by (rewrite Rabs_mult; apply Rmult_le_compat; try apply Rabs_pos; lra).
  split.
  - replace (e1 * x + e2 * y + e3 * z - d * x) with ((e1 - d) * x + e2 * y + e3 * z) by ring.
    eapply Rle_trans; [apply Rabs_triang|]. eapply Rle_trans; [apply Rplus_le_compat_r, Rabs_triang|]. lra.
  - lra.
Qed.
Lemma fdot_near e v (d t k : R) : Rabs (dot e v - t) <= k -> Rabs (vx e * vx v) + Rabs (vy e * vy v) + Rabs (vz e * vz v) <= d -> Rabs (fdot F e v - t) <= k + 4 * u64 * d + u64 / 100000.
Proof.
  intros A B. pose proof (proj1 (proj2 HF) e v) as C. pose proof (abs_tri _ _ _ _ _ C A) as T. pose proof eta_e20 as E20. pose proof u64_bounds as U.
  assert (4 * u64 * (Rabs (vx e * vx v) + Rabs (vy e * vy v) + Rabs (vz e * vz v)) <= 4 * u64 * d) by (apply Rmult_le_compat_l; lra). unfold e20 in E20. lra.
Qed.
Lemma row1_near v : Rabs (vx v) <= 2 -> Rabs (vy v) <= 2 -> Rabs (vz v) <= 2 -> Rabs (fdot F (row1 E) v - i1 * vx v) <= 1 / 100 * u64.
Proof.
  intros X Y Z. destruct (dot_near _ _ _ _ _ _ _ _ E11 E12 E13 X Y Z) as (A & B). pose proof u64_bounds as U.
  pose proof (fdot_near (row1 E) v _ _ _ A B) as C. rewrite (Rabs_right i1) in C by lra. eapply Rle_trans; [exact C|].
  assert (4 * u64 * (2 * (i1 + u64 / 500) + u64 / 100000000000000000000000) <= 4 * u64 * (1 / 100000)) by (apply Rmult_le_compat_l; lra). lra.
Qed.
Lemma row2_near v : Rabs (vx v) <= 2 -> Rabs (vy v) <= 2 -> Rabs (vz v) <= 2 -> Rabs (fdot F (row2 E) v - i2 * vy v) <= 1 / 100 * u64.
Proof.
  intros X Y Z. destruct (dot_near _ _ _ _ _ _ _ _ E22 E21 E23 Y X Z) as (A & B). pose proof u64_bounds as U.
  assert (A' : Rabs (dot (row2 E) v - i2 * vy v) <= 2 * (u64 / 500) + u64 / 100000000000000000000000) by (unfold dot, row2; cbn [vx vy vz]; replace (m21 E * vx v + m22 E * vy v + m23 E * vz v) with (m22 E * vy v + m21 E * vx v + m23 E * vz v) by ring; exact A).
  pose proof (fdot_near (row2 E) v (2 * (Rabs i2 + u64 / 500) + u64 / 100000000000000000000000) _ _ A' ltac:(unfold row2; cbn [vx vy vz]; lra)) as C. rewrite (Rabs_right i2) in C by lra. eapply Rle_trans; [exact C|].
  assert (4 * u64 * (2 * (i2 + u64 / 500) + u64 / 100000000000000000000000) <= 4 * u64 * (1 / 100000)) by (apply Rmult_le_compat_l; lra). lra.
Qed.
Lemma row3_near v : Rabs (vx v) <= 2 -> Rabs (vy v) <= 2 -> Rabs (vz v) <= 2 -> Rabs (fdot F (row3 E) v - -1 * vz v) <= 60 * u64.
Proof.
  intros X Y Z. destruct (dot_near _ _ _ _ _ _ _ _ E33 E31 E32 Z X Y) as (A & B). pose proof u64_bounds as U.
  assert (A' : Rabs (dot (row3 E) v - -1 * vz v) <= 2 * (20 * u64) + u64 / 100000000000000000000000) by (unfold dot, row3; cbn [vx vy vz]; replace (m31 E * vx v + m32 E * vy v + m33 E * vz v) with (m33 E * vz v + m31 E * vx v + m32 E * vy v) by ring; exact A).
  pose proof (fdot_near (row3 E) v (2 * (Rabs (-1) + 20 * u64) + u64 / 100000000000000000000000) _ _ A' ltac:(unfold row3; cbn [vx vy vz]; lra)) as C. rewrite (Rabs_left (-1)) in C by lra. eapply Rle_trans; [exact C|].
  assert (4 * u64 * (2 * (- -1 + 20 * u64) + u64 / 100000000000000000000000) <= 4 * u64 * (21 / 10)) by (apply Rmult_le_compat_l; lra). lra.
Qed.
End Prod.
