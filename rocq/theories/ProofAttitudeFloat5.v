(** Rounding errors of the rotation vector to quaternion conversion. *)
From Coq Require Import Reals ZArith List Bool Lra Lia Psatz.
From Flocq Require Import Core.
From Verif Require Import Base BaseVec SpecRot ModelAttitude ModelDate ModelStrapdownFloat ModelAttitudeFloat SpecFloatOps
  ProofVec ProofAttitude ProofRnd ProofStrapdownFloat ProofStrapdownFloat2 ProofFramesFloat ProofGravityFloat ProofAttitudeFloat.
Import ListNotations.
Open Scope R_scope.

Section Quat.
Variable F : FloatOps.
Hypothesis HF : float_ok F.
Let r := frnd F.
Variables p0 p1 p2 : R.
Let n := norm (V3 p0 p1 p2).
Hypothesis HN : bpow radix2 (-400) <= n <= 10.
Let S := r (r (r (p0 * p0) + r (p1 * p1)) + r (p2 * p2)).
Let m := r (sqrt S).

Lemma n_sq : n * n = p0 * p0 + p1 * p1 + p2 * p2.
Proof. unfold n. rewrite norm_sq. reflexivity. Qed.
Lemma N_ok : bpow radix2 (-900) <= n2 p0 p1 p2 0.
Proof.
  unfold n2. replace (p0 * p0 + p1 * p1 + p2 * p2 + 0 * 0) with (n * n) by (rewrite n_sq; ring).
  apply Rle_trans with (bpow radix2 (-400) * bpow radix2 (-400)).
  - rewrite <- bpow_plus. apply bpow_le. lia.
  - apply Rmult_le_compat; try apply bpow_ge_0; apply HN.
Qed.
Lemma S_err : Rabs (S - n * n) <= 31 / 10 * u64 * (n * n).
Proof.
  assert (Q : sp p0 p1 p2 0 S (p0 * p0 + p1 * p1 + p2 * p2) (31 / 10) 1).
  { pose proof (w_sum p0 p1 p2 0 N_ok) as W. pose proof (w_pos p0 p1 p2 0 N_ok (p0 * p0)). pose proof (w_pos p0 p1 p2 0 N_ok (p1 * p1)). pose proof (w_pos p0 p1 p2 0 N_ok (p2 * p2)). pose proof (w_pos p0 p1 p2 0 N_ok (0 * 0)).
    pose proof (Rle_0_sqr p0). pose proof (Rle_0_sqr p1). pose proof (Rle_0_sqr p2). unfold Rsqr in *.
    eapply sp_le; [exact N_ok|apply (sp_rnd F HF); [exact N_ok|]; eapply sp_add with (M'' := 1); [apply (sp_rnd F HF); [exact N_ok|]; eapply sp_add with (M'' := 1); [apply (sp_prod F HF); exact N_ok|apply (sp_prod F HF); exact N_ok|]|apply (sp_prod F HF); exact N_ok|]| |]; try (unfold n2; apply Rabs_le; lra); unfold e15, e20; lra. }
  destruct Q as (Q & _). replace (n * n) with (p0 * p0 + p1 * p1 + p2 * p2) by (rewrite n_sq; ring). unfold n2 in Q. replace (p0 * p0 + p1 * p1 + p2 * p2 + 0 * 0) with (p0 * p0 + p1 * p1 + p2 * p2) in Q by ring. exact Q.
Qed.
Lemma n_pos : 0 < n. Proof. pose proof (bpow_gt_0 radix2 (-400)). lra. Qed.
Lemma eta_n : eta64 <= 1 / 1000 * (u64 * n).
Proof.
  unfold eta64, u64. apply Rle_trans with (bpow radix2 (-70) * (bpow radix2 (-53) * bpow radix2 (-400))).
  - rewrite <- !bpow_plus. apply bpow_le. lia.
  - pose proof (bpow_gt_0 radix2 (-53)). pose proof (bpow_gt_0 radix2 (-400)). apply Rmult_le_compat; [apply bpow_ge_0|apply Rmult_le_pos; lra| |apply Rmult_le_compat_l; lra]. cbn. lra.
Qed.
Lemma S_nn : 0 <= S.
Proof. pose proof S_err as E. apply Rabs_le_inv in E. pose proof u64_bounds. pose proof (Rle_0_sqr n). unfold Rsqr in *. nra. Qed.
(** Relative errors are stated for the ratio to the exact length. *)
Lemma m_err : ap (m / n) 1 (42 / 10) 1.
Proof.
  pose proof n_pos as NP. pose proof S_err as E. pose proof S_nn as S0. pose proof u64_bounds as U. pose proof eta_n as H.
  split; [|rewrite Rabs_R1; lra].
  assert (Q : Rabs (sqrt S - n) <= 31 / 10 * (u64 * n)).
  { assert (R0 := sqrt_pos S). assert (RR := sqrt_sqrt S S0). replace (S - n * n) with ((sqrt S - n) * (sqrt S + n)) in E by (ring_simplify; replace (sqrt S ^ 2) with S by (cbn; lra); ring).
    rewrite Rabs_mult, (Rabs_right (sqrt S + n)) in E by lra. pose proof (Rabs_pos (sqrt S - n)). apply Rmult_le_reg_r with n; [lra|]. nra. }
  pose proof (rnd_le F HF (sqrt S)) as R. pose proof (abs_tri _ _ _ _ _ R Q) as T. fold r in T. fold m in T.
  set (w := u64 * n) in *. assert (W0 : 0 < w) by (unfold w; apply Rmult_lt_0_compat; lra).
  assert (S1 : Rabs (sqrt S) <= n + 31 / 10 * w) by (pose proof (Rabs_triang (sqrt S - n) n) as V; replace (sqrt S - n + n) with (sqrt S) in V by ring; rewrite (Rabs_right n) in V by lra; lra).
  assert (u64 * Rabs (sqrt S) <= u64 * (n + 31 / 10 * w)) by (apply Rmult_le_compat_l; lra).
  assert (u64 * (31 / 10 * w) <= 1 / 1000 * w) by (replace (u64 * (31 / 10 * w)) with (31 / 10 * u64 * w) by ring; apply Rmult_le_compat_r; lra).
  assert (M : Rabs (m - n) <= 42 / 10 * w) by (replace (u64 * (n + 31 / 10 * w)) with (w + u64 * (31 / 10 * w)) in * by (unfold w; ring); lra).
  replace (m / n - 1) with ((m - n) * / n) by (field; lra). rewrite Rabs_mult, (Rabs_right (/ n)) by (apply Rle_ge, Rlt_le, Rinv_0_lt_compat; lra).
  apply Rmult_le_reg_r with n; [lra|]. rewrite Rmult_assoc, Rinv_l by lra. unfold w in M. lra.
Qed.
Lemma m_pos : 0 < m.
Proof.
  pose proof n_pos. destruct m_err as (E & _). apply Rabs_le_inv in E. pose proof u64_bounds.
  assert (0 < m / n) by lra. replace m with (m / n * n) by (field; lra). apply Rmult_lt_0_compat; lra.
Qed.
(** A rounded positive multiple of a number close to 1/n, scaled back by n. *)
Lemma scaled_rnd x y k : ap (n * x) y k 1 -> k <= 100 -> ap (n * r x) y (k + 1 + 2 / 1000) 1.
Proof.
  intros (A & B) K. pose proof n_pos as NP. pose proof u64_bounds as U. pose proof eta_n as H. split; [|exact B].
  pose proof (rnd_le F HF x) as R. fold r in R.
  assert (A' : Rabs (n * x) <= 1 + 1 / 10000).
  { pose proof (Rabs_triang (n * x - y) y) as T. replace (n * x - y + y) with (n * x) in T by ring. nra. }
  replace (n * r x - y) with (n * (r x - x) + (n * x - y)) by ring. eapply Rle_trans; [apply Rabs_triang|]. rewrite Rabs_mult, (Rabs_right n) by lra.
  assert (n * Rabs (r x - x) <= n * (u64 * Rabs x + eta64)) by (apply Rmult_le_compat_l; lra).
  rewrite Rabs_mult, (Rabs_right n) in A' by lra.
  assert (n * (u64 * Rabs x) <= (1 + 1 / 10000) * u64) by (replace (n * (u64 * Rabs x)) with (n * Rabs x * u64) by ring; apply Rmult_le_compat_r; lra).
  assert (u64 * n <= u64 * 10) by (apply Rmult_le_compat_l; lra).
  assert (E2 : eta64 <= e20 * e20 * u64).
  { unfold eta64, u64, e20. apply Rle_trans with (bpow radix2 (-134) * bpow radix2 (-53)); [rewrite <- bpow_plus; apply bpow_le; lia|]. apply Rmult_le_compat_r; [apply bpow_ge_0|]. cbn. lra. }
  assert (n * eta64 <= 10 * (e20 * e20 * u64)) by (apply Rmult_le_compat; try lra; unfold eta64; apply bpow_ge_0). unfold e20 in *. lra.
Qed.
Lemma k_err : ap (n * r (1 / m)) 1 (53 / 10) 1.
Proof.
  pose proof n_pos. pose proof m_pos. pose proof u64_bounds as U. destruct m_err as (E & _).
  eapply ap_le; [apply (scaled_rnd (1 / m) 1 (421 / 100)); [|lra]|lra|lra]. split; [|rewrite Rabs_R1; lra].
  set (t := m / n) in *. replace (n * (1 / m)) with (/ t) by (unfold t; field; lra). assert (T := Rabs_le_inv _ _ E). assert (0 < t) by lra.
  replace (/ t - 1) with ((1 - t) * / t) by (field; lra). rewrite Rabs_mult, (Rabs_right (/ t)) by (apply Rle_ge, Rlt_le, Rinv_0_lt_compat; lra).
  apply Rmult_le_reg_r with t; [lra|]. rewrite Rmult_assoc, Rinv_l by lra. rewrite Rabs_minus_sym. nra.
Qed.
Lemma h_err : Rabs (r (m / 2) - n / 2) <= 27 * u64.
Proof.
  pose proof n_pos. pose proof m_pos. pose proof u64_bounds as U. destruct m_err as (E & _).
  assert (A : ap (m / 2) (n / 2) 21 5).
  { split; [|rewrite Rabs_right by lra; lra]. replace (m / 2 - n / 2) with (n / 2 * (m / n - 1)) by (field; lra). rewrite Rabs_mult, (Rabs_right (n / 2)) by lra. pose proof (Rabs_pos (m / n - 1)). nra. }
  destruct (ap_rnd F HF _ _ _ _ A) as (D & _). eapply Rle_trans; [exact D|]. apply Rmult_le_compat_r; [lra|]. num.
Qed.
Lemma comp5 x : Rabs x <= n -> Rabs (r (r (r (1 / m) * fsin F (r (m / 2))) * x) - 1 / n * sin (n / 2) * x) <= 40 * u64.
Proof.
  intros X. pose proof n_pos. pose proof u64_bounds as U. pose proof h_err as HH.
  assert (A : ap (fsin F (r (m / 2))) (sin (n / 2)) 29 1).
  { split; [|apply Rabs_le, SIN_bound]. pose proof (proj1 (proj2 (proj2 HF)) (r (m / 2))) as D. pose proof (abs_tri _ _ _ _ _ D (Rle_trans _ _ _ (sin_lip _ _) HH)). lra. }
  assert (B : ap (n * r (r (1 / m) * fsin F (r (m / 2)))) (sin (n / 2)) (36 - 1 / 2) 1).
  { eapply ap_le; [apply (scaled_rnd _ _ (344 / 10)); [|lra]|lra|lra]. rewrite <- Rmult_assoc. replace (sin (n / 2)) with (1 * sin (n / 2)) by ring.
    eapply ap_le; [apply (ap_mul _ _ _ _ _ _ _ _ k_err A)| |]; num. }
  assert (C : ap (x / n) (x / n) 0 1).
  { split; [rewrite Rminus_eq_0, Rabs_R0; lra|]. unfold Rdiv. rewrite Rabs_mult, (Rabs_right (/ n)) by (apply Rle_ge, Rlt_le, Rinv_0_lt_compat; lra). apply Rmult_le_reg_r with n; [lra|]. rewrite Rmult_assoc, Rinv_l; lra. }
  pose proof (ap_rnd F HF _ _ _ _ (ap_mul _ _ _ _ _ _ _ _ B C)) as (D & _).
  replace (n * r (r (1 / m) * fsin F (r (m / 2))) * (x / n)) with (r (r (1 / m) * fsin F (r (m / 2))) * x) in D by (field; lra).
  replace (sin (n / 2) * (x / n)) with (1 / n * sin (n / 2) * x) in D by (field; lra). eapply Rle_trans; [exact D|]. apply Rmult_le_compat_r; [lra|]. num.
Qed.
Lemma quat_rot_float : exists q q', quat_of_rotvec p0 p1 p2 = Ret q /\ quat_of_rotvec_f F p0 p1 p2 = Ret q' /\
  Forall2 (fun x' x => Rabs (x' - x) <= 40 * u64) q' q.
Proof.
  pose proof n_pos. pose proof m_pos. pose proof S_nn. pose proof u64_bounds as U. pose proof h_err as H2.
  unfold quat_of_rotvec, quat_of_rotvec_f. cbv zeta. change (frnd F) with r. change (r (r (r (p0 * p0) + r (p1 * p1)) + r (p2 * p2))) with S.
  rewrite <- n_sq. unfold sqrtc. destruct (Rlt_dec (n * n) 0) as [B|_]; [pose proof (Rle_0_sqr n); unfold Rsqr in *; lra|]. destruct (Rlt_dec S 0) as [B|_]; [lra|]. cbn [bind].
  rewrite sqrt_square by lra. change (r (sqrt S)) with m. rewrite !Rdivc_ok by lra. cbn [bind].
  destruct (comp_le (V3 p0 p1 p2)) as (X & Y & Z). cbn [vx vy vz] in X, Y, Z.
  do 2 eexists. split; [reflexivity|]. split; [reflexivity|]. repeat (apply Forall2_cons || apply Forall2_nil); try (apply comp5; assumption).
  pose proof (proj2 (proj2 (proj2 HF)) (r (m / 2))) as D. pose proof (abs_tri _ _ _ _ _ D (Rle_trans _ _ _ (cos_lip _ _) H2)). lra.
Qed.
End Quat.

(** Underflow: nonzero inputs whose squares vanish. *)
Lemma tiny_sq : rnd64 (bpow radix2 (-540) * bpow radix2 (-540)) = 0.
Proof. apply rnd64_tiny. rewrite <- bpow_plus, Rabs_right by (apply Rle_ge, bpow_ge_0). apply bpow_lt. lia. Qed.
Lemma tiny_rotvec : computeQuaternionFromRotationVec_f binary64_ops [bpow radix2 (-540); 0; 0] [0; 0; 0; 0] = NonFinite.
Proof.
  unfold computeQuaternionFromRotationVec_f, quat_of_rotvec_f. cbn [length Nat.eqb]. cbv zeta. cbn [binary64_ops frnd fsin fcos].
  rewrite tiny_sq, !Rmult_0_l. repeat (rewrite rnd64_0 || rewrite Rplus_0_r). unfold sqrtc. destruct (Rlt_dec 0 0) as [B|_]; [lra|]. cbn [bind].
  rewrite sqrt_0. repeat (rewrite rnd64_0 || rewrite Rplus_0_r). rewrite Rdivc_0. reflexivity.
Qed.
Lemma tiny_quat : computeDcmFromQuaternion_f binary64_ops [bpow radix2 (-540); 0; 0; 0] (MX 3 3 (fun _ _ => 0)) = NonFinite.
Proof.
  unfold computeDcmFromQuaternion_f, dcm_entries_f. cbn [mx_rows mx_cols Nat.eqb andb]. cbv zeta. cbn [binary64_ops frnd].
  rewrite tiny_sq, !Rmult_0_l, !Rmult_0_r. repeat (rewrite rnd64_0 || rewrite Rplus_0_r). rewrite !Rdivc_0. reflexivity.
Qed.

(** With exact arithmetic the rounded functions are the exact ones. *)
Lemma dcm_exact q M : computeDcmFromQuaternion_f exact_ops q M = computeDcmFromQuaternion q M.
Proof.
  unfold computeDcmFromQuaternion_f, computeDcmFromQuaternion. destruct q as [|q0 [|q1 [|q2 [|q3 [|q4 q]]]]]; try reflexivity.
  destruct (andb _ _); [|reflexivity]. unfold dcm_entries_f, dcm_entries. cbv zeta. cbn [exact_ops frnd]. unfold Rdivc.
  destruct (Req_EM_T _ 0); reflexivity.
Qed.
Lemma quat_exact M q : computeQuaternionFromDcm_f exact_ops (fun x => x * x) M q = computeQuaternionFromDcm M q.
Proof.
  unfold computeQuaternionFromDcm_f, computeQuaternionFromDcm. destruct (Nat.eqb _ 4); [|reflexivity]. destruct (andb _ _); [|reflexivity].
  unfold quat_of_dcm_f, quat_of_dcm. cbv zeta. cbn [exact_ops frnd]. reflexivity.
Qed.
Lemma rotvec_exact q phi : computeRotationVecFromQuaternion_f exact_ops asin q phi = computeRotationVecFromQuaternion q phi.
Proof.
  unfold computeRotationVecFromQuaternion_f, computeRotationVecFromQuaternion. destruct (Nat.eqb _ 3); [|reflexivity].
  destruct q as [|q0 [|q1 [|q2 [|q3 [|q4 q]]]]]; try reflexivity. unfold rotvec_of_quat_f, rotvec_of_quat. cbv zeta. cbn [exact_ops frnd fdot].
  replace (V3 (q1 * -1) (q2 * -1) (q3 * -1)) with (V3 (- q1) (- q2) (- q3)) by (f_equal; ring).
  set (w := if Rlt_dec q0 0 then _ else _). clearbody w. unfold sqrtc. destruct (Rlt_dec (dot w w) 0) as [B|_].
  { exfalso. rewrite <- norm_sq in B. pose proof (Rle_0_sqr (norm w)). unfold Rsqr in *. lra. }
  cbn [bind]. change (sqrt (dot w w)) with (norm w). destruct (Rlt_dec _ _); [reflexivity|]. cbn [bind]. rewrite !Rmult_0_l. reflexivity.
Qed.
Lemma rotquat_exact p q : computeQuaternionFromRotationVec_f exact_ops p q = computeQuaternionFromRotationVec p q.
Proof. reflexivity. Qed.
