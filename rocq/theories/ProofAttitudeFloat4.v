(** Rounding errors of the quaternion to rotation vector conversion. *)
From Coq Require Import Reals ZArith List Bool Lra Lia Psatz.
From Flocq Require Import Core.
From Verif Require Import Base BaseVec SpecRot ModelAttitude ModelDate ModelStrapdownFloat ModelAttitudeFloat SpecFloatOps
  ProofVec ProofAttitude ProofPi ProofDate ProofStrapdownFloat ProofStrapdownFloat2 ProofFramesFloat ProofGravityFloat ProofAttitudeFloat3.
Import ListNotations.
Open Scope R_scope.

Section Rotvec.
Variable F : FloatOps.
Hypothesis HF : float_ok F.
Let r := frnd F.
Variable v : vec3.
Let n := norm v.
Let nh := r (sqrt (fdot F v v)).

Lemma eta_tiny : eta64 <= e20 * e20 * u64.
Proof.
  unfold eta64, u64, e20. apply Rle_trans with (bpow radix2 (-134) * bpow radix2 (-53)).
  - rewrite <- bpow_plus. apply bpow_le. lia.
  - apply Rmult_le_compat_r; [apply bpow_ge_0|]. cbn. lra.
Qed.
Lemma dot_abs : Rabs (vx v * vx v) + Rabs (vy v * vy v) + Rabs (vz v * vz v) = n * n.
Proof.
  unfold n. rewrite norm_sq. unfold dot. pose proof (Rle_0_sqr (vx v)). pose proof (Rle_0_sqr (vy v)). pose proof (Rle_0_sqr (vz v)). unfold Rsqr in *.
  rewrite !Rabs_right by lra. reflexivity.
Qed.
Lemma length_err : 5 / 10000000 <= n -> 0 <= fdot F v v /\ Rabs (nh - n) <= 7 * u64 * n.
Proof.
  intros N. pose proof u64_bounds as U. pose proof eta_tiny as T. destruct HF as (_ & HD & _). specialize (HD v v). rewrite dot_abs in HD.
  assert (DD : dot v v = n * n) by (unfold n; rewrite norm_sq; reflexivity). rewrite DD in HD. set (f := fdot F v v) in *.
  assert (N2 : 1 / 10000000000000 <= n * n) by nra.
  assert (E8 : 8 * eta64 <= u64 * (n * n)).
  { apply Rle_trans with (8 * (e20 * e20 * u64)); [lra|]. unfold e20. nra. }
  assert (Df : Rabs (f - n * n) <= 5 * u64 * (n * n)) by lra.
  assert (F0 : 0 <= f) by (apply Rabs_le_inv in Df; nra). split; [exact F0|].
  assert (Sf : Rabs (sqrt f - n) <= 5 * u64 * n).
  { assert (S0 := sqrt_pos f). assert (SS := sqrt_sqrt f F0). replace (f - n * n) with ((sqrt f - n) * (sqrt f + n)) in Df by (ring_simplify; replace (sqrt f ^ 2) with f by (cbn; lra); ring).
    rewrite Rabs_mult, (Rabs_right (sqrt f + n)) in Df by lra. pose proof (Rabs_pos (sqrt f - n)).
    apply Rmult_le_reg_r with n; [lra|]. nra. }
  unfold nh, r. pose proof (rnd_le F HF (sqrt f)) as R. pose proof (abs_tri _ _ _ _ _ R Sf) as Q. eapply Rle_trans; [exact Q|].
  assert (S1 : Rabs (sqrt f) <= n + 5 * u64 * n) by (pose proof (Rabs_triang (sqrt f - n) n) as W; replace (sqrt f - n + n) with (sqrt f) in W by ring; rewrite (Rabs_right n) in W by lra; lra).
  assert (u64 * Rabs (sqrt f) <= u64 * (n + 5 * u64 * n)) by (apply Rmult_le_compat_l; lra).
  assert (eta64 <= u64 * n / 2). { apply Rle_trans with (e20 * e20 * u64); [lra|]. unfold e20. nra. }
  set (w := u64 * n) in *. assert (W0 : 0 <= w) by (unfold w; apply Rmult_le_pos; lra).
  assert (5 * u64 * w <= w / 4) by (apply Rle_trans with (1 / 4 * w); [apply Rmult_le_compat_r; lra|lra]).
  replace (u64 * (n + 5 * u64 * n)) with (w + 5 * u64 * w) in * by (unfold w; ring). replace (5 * u64 * n) with (5 * w) by (unfold w; ring). replace (7 * u64 * n) with (7 * w) by (unfold w; ring). lra.
Qed.
Lemma axis_err x : 5 / 10000000 <= n -> Rabs x <= n -> nh <> 0 /\ ap (r (x / nh)) (x / n) (85 / 10) 1.
Proof.
  intros N X. destruct (length_err N) as (_ & E). pose proof u64_bounds as U. apply Rabs_le_inv in E.
  assert (P : n * (1 - 1 / 1000000) <= nh) by nra. assert (NH : 0 < nh) by nra. split; [lra|].
  assert (D : ap (x / nh) (x / n) (71 / 10) 1).
  { split.
    - replace (x / nh - x / n) with (x / n * ((n - nh) / nh)) by (field; lra). rewrite Rabs_mult.
      assert (A : Rabs (x / n) <= 1).
      { unfold Rdiv. rewrite Rabs_mult, (Rabs_right (/ n)) by (apply Rle_ge, Rlt_le, Rinv_0_lt_compat; lra). apply Rmult_le_reg_r with n; [lra|]. rewrite Rmult_assoc, Rinv_l; lra. }
      assert (B : Rabs ((n - nh) / nh) <= 71 / 10 * u64).
      { unfold Rdiv at 1. rewrite Rabs_mult, (Rabs_right (/ nh)) by (apply Rle_ge, Rlt_le, Rinv_0_lt_compat; lra). apply Rmult_le_reg_r with nh; [lra|]. rewrite Rmult_assoc, Rinv_l, Rmult_1_r by lra.
        apply Rle_trans with (7 * u64 * n); [apply Rabs_le; lra|]. nra. }
      pose proof (Rabs_pos (x / n)). pose proof (Rabs_pos ((n - nh) / nh)). nra.
    - unfold Rdiv. rewrite Rabs_mult, (Rabs_right (/ n)) by (apply Rle_ge, Rlt_le, Rinv_0_lt_compat; lra). apply Rmult_le_reg_r with n; [lra|]. rewrite Rmult_assoc, Rinv_l; lra. }
  eapply ap_le; [apply (ap_rnd F HF); exact D| |lra]. num.
Qed.
Lemma thr_err : Rabs (r (1 / 1000000) - 1 / 1000000) <= 1 / 10000000000000000.
Proof.
  unfold r. pose proof (rnd_le F HF (1 / 1000000)) as R. pose proof u64_bounds. pose proof eta_tiny. rewrite (Rabs_right (1 / 1000000)) in R by lra.
  assert (e20 * e20 * u64 <= 1 / 100000000000000000) by (unfold e20; lra). lra.
Qed.
Variable fasin : R -> R.
Hypothesis HS : forall x, -1 <= x <= 1 -> Rabs (fasin x - asin x) <= 4 * u64.
Lemma angle_err : 5 / 10000000 <= n <= 995 / 1000 -> -1 <= nh <= 1 /\ ap (r (-2 * fasin nh)) (-2 * asin n) 166 (32 / 10).
Proof.
  intros N. destruct (length_err (proj1 N)) as (_ & E). pose proof u64_bounds as U.
  assert (E' : Rabs (nh - n) <= 7 * u64) by nra. assert (E2 := Rabs_le_inv _ _ E'). assert (E1 := Rabs_le_inv _ _ E).
  assert (B : 0 <= nh <= 9951 / 10000) by nra. split; [lra|].
  pose proof (asin_lip nh n ltac:(lra) ltac:(lra)) as L. pose proof (HS nh ltac:(lra)) as S. pose proof (asin_bound n). pose proof PI_bounds.
  assert (A : ap (fasin nh) (asin n) 81 (1571 / 1000)).
  { split; [|apply Rabs_le; lra]. pose proof (Rabs_triang (fasin nh - asin nh) (asin nh - asin n)) as T. replace (fasin nh - asin nh + (asin nh - asin n)) with (fasin nh - asin n) in T by ring. lra. }
  assert (A2 : ap (-2 * fasin nh) (-2 * asin n) 162 (3142 / 1000)).
  { destruct A as (A1 & A2). split.
    - replace (-2 * fasin nh - -2 * asin n) with (-2 * (fasin nh - asin n)) by ring. rewrite Rabs_mult, (Rabs_left (-2)) by lra. lra.
    - rewrite Rabs_mult, (Rabs_left (-2)) by lra. lra. }
  eapply ap_le; [apply (ap_rnd F HF); exact A2| |]; num.
Qed.
Lemma comp_err x : 5 / 10000000 <= n <= 995 / 1000 -> Rabs x <= n -> Rabs (r (r (-2 * fasin nh) * r (x / nh)) - -2 * asin n * (x / n)) <= 200 * u64.
Proof.
  intros N X. destruct (angle_err N) as (_ & A). destruct (axis_err x (proj1 N) X) as (_ & B).
  destruct (ap_rnd F HF _ _ _ _ (ap_mul _ _ _ _ _ _ _ _ A B)) as (D & _). pose proof u64_bounds. eapply Rle_trans; [exact D|]. apply Rmult_le_compat_r; [lra|]. num.
Qed.
End Rotvec.

Section Total.
Variable F : FloatOps.
Hypothesis HF : float_ok F.
Variable fasin : R -> R.
Hypothesis HS : forall x, -1 <= x <= 1 -> Rabs (fasin x - asin x) <= 4 * u64.
Lemma rotvec_float q0 q1 q2 q3 : 2 / 1000000 <= norm (V3 q1 q2 q3) <= 995 / 1000 ->
  exists p p', rotvec_of_quat q0 q1 q2 q3 = Ret p /\ rotvec_of_quat_f F fasin q0 q1 q2 q3 = Ret p' /\
    Forall2 (fun x' x => Rabs (x' - x) <= 200 * u64) p' p.
Proof.
  intros N. unfold rotvec_of_quat, rotvec_of_quat_f. cbv zeta.
  set (w := if Rlt_dec q0 0 then V3 (- q1) (- q2) (- q3) else V3 q1 q2 q3).
  assert (W : (if Rlt_dec q0 0 then V3 (q1 * -1) (q2 * -1) (q3 * -1) else V3 q1 q2 q3) = w).
  { unfold w. destruct (Rlt_dec q0 0); [f_equal; ring|reflexivity]. }
  rewrite W. assert (Nw : norm w = norm (V3 q1 q2 q3)).
  { unfold w. destruct (Rlt_dec q0 0); [|reflexivity]. unfold norm, dot. cbn [vx vy vz]. f_equal. ring. }
  clearbody w. rewrite <- Nw in N. clear Nw W. destruct (comp_le w) as (X & Y & Z).
  pose proof (length_err F HF w ltac:(lra)) as (F0 & E). pose proof (angle_err F HF w fasin HS ltac:(lra)) as (A1 & _).
  pose proof (thr_err F HF) as T. apply Rabs_le_inv in T. pose proof u64_bounds as U. assert (E' := Rabs_le_inv _ _ E).
  destruct (Rlt_dec (1 / 1000000) (norm w)) as [_|B]; [|lra]. rewrite !Rdivc_ok by lra. unfold asinc, sqrtc.
  destruct (Rlt_dec (norm w) (-1)) as [B|_]; [lra|]. destruct (Rlt_dec 1 (norm w)) as [B|_]; [lra|]. destruct (Rlt_dec (fdot F w w) 0) as [B|_]; [lra|]. cbn [bind].
  destruct (Rlt_dec (frnd F (1 / 1000000)) _) as [_|B]; [|exfalso; apply B; nra].
  rewrite !Rdivc_ok by apply (axis_err F HF w _ ltac:(lra) X). cbn [bind]. unfold asinc_f.
  destruct (Rlt_dec _ (-1)) as [B|_]; [lra|]. destruct (Rlt_dec 1 _) as [B|_]; [lra|]. cbn [bind].
  do 2 eexists. split; [reflexivity|]. split; [reflexivity|].
  repeat (apply Forall2_cons || apply Forall2_nil); apply (comp_err F HF w fasin HS); auto; lra.
Qed.
Lemma rotvec_small q0 q1 q2 q3 : (forall w, 0 <= fdot F w w) -> norm (V3 q1 q2 q3) <= 9 / 10000000 -> rotvec_of_quat_f F fasin q0 q1 q2 q3 = Ret [0; 0; 0].
Proof.
  intros HP N. unfold rotvec_of_quat_f. cbv zeta. set (w := if Rlt_dec q0 0 then V3 (- q1) (- q2) (- q3) else V3 q1 q2 q3).
  assert (Nw : norm w = norm (V3 q1 q2 q3)).
  { unfold w. destruct (Rlt_dec q0 0); [|reflexivity]. unfold norm, dot. cbn [vx vy vz]. f_equal. ring. }
  clearbody w. rewrite <- Nw in N. specialize (HP w).
  unfold sqrtc. destruct (Rlt_dec (fdot F w w) 0) as [B|_]; [lra|]. cbn [bind].
  assert (L : frnd F (sqrt (fdot F w w)) <= frnd F (1 / 1000000)).
  { pose proof (thr_err F HF) as T. apply Rabs_le_inv in T. pose proof u64_bounds as U. pose proof eta_tiny as T2. pose proof (norm_nonneg w) as P.
    assert (E : fdot F w w <= 91 / 100000000 * (91 / 100000000)).
    { destruct HF as (_ & HD & _). specialize (HD w w). rewrite dot_abs in HD. assert (DD : dot w w = norm w * norm w) by (rewrite norm_sq; reflexivity). rewrite DD in HD.
      apply Rabs_le_inv in HD. assert (norm w * norm w <= 9 / 10000000 * (9 / 10000000)) by (apply Rmult_le_compat; lra).
      assert (4 * u64 * (norm w * norm w) <= 1 / 10000000000 * (9 / 10000000 * (9 / 10000000))) by (apply Rmult_le_compat; try lra; apply Rmult_le_pos; lra). unfold e20 in T2. lra. }
    assert (S : 0 <= sqrt (fdot F w w) <= 91 / 100000000).
    { split; [apply sqrt_pos|]. rewrite <- (sqrt_square (91 / 100000000)) by lra. apply sqrt_le_1_alt, E. }
    pose proof (rnd_le F HF (sqrt (fdot F w w))) as R. rewrite (Rabs_right (sqrt _)) in R by lra. apply Rabs_le_inv in R. unfold e20 in T2.
    assert (u64 * sqrt (fdot F w w) <= 1 / 10000000000 * (91 / 100000000)) by (apply Rmult_le_compat; lra). lra. }
  destruct (Rlt_dec _ _) as [B|_]; [lra|reflexivity].
Qed.
End Total.
