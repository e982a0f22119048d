(** The rounding theorems about attitude conversions, assembled. *)
From Coq Require Import Reals ZArith List Bool Lra Lia Psatz.
From Flocq Require Import Core.
From Verif Require Import Base BaseVec SpecRot SpecFloatOps SpecAttitudeFloat ModelAttitude ModelDate ModelStrapdownFloat ModelAttitudeFloat
  ProofVec ProofAttitude ProofPi ProofDate ProofRnd ProofStrapdownFloat ProofStrapdownFloat2 ProofFramesFloat ProofGravityFloat
  ProofAttitudeFloat ProofAttitudeFloat2 ProofAttitudeFloat3 ProofAttitudeFloat4 ProofAttitudeFloat5.
Import ListNotations.
Open Scope R_scope.

Lemma within_near e A B : entries_within e A B <-> near e A B.
Proof.
  split.
  - intros H. unfold near.
    pose proof (H 0%nat 0%nat ltac:(lia) ltac:(lia)). pose proof (H 0%nat 1%nat ltac:(lia) ltac:(lia)). pose proof (H 0%nat 2%nat ltac:(lia) ltac:(lia)).
    pose proof (H 1%nat 0%nat ltac:(lia) ltac:(lia)). pose proof (H 1%nat 1%nat ltac:(lia) ltac:(lia)). pose proof (H 1%nat 2%nat ltac:(lia) ltac:(lia)).
    pose proof (H 2%nat 0%nat ltac:(lia) ltac:(lia)). pose proof (H 2%nat 1%nat ltac:(lia) ltac:(lia)). pose proof (H 2%nat 2%nat ltac:(lia) ltac:(lia)).
    cbn [MX_of_mat3 mx_at] in *. repeat split; assumption.
  - intros ((H1 & H2 & H3) & (H4 & H5 & H6) & (H7 & H8 & H9)) i j Hi Hj.
    destruct i as [|[|[|i]]]; try lia; destruct j as [|[|[|j]]]; try lia; cbn [MX_of_mat3 mx_at]; assumption.
Qed.
Lemma dcm_fn F q0 q1 q2 q3 M : float_ok F -> bpow radix2 (-900) <= q0 * q0 + q1 * q1 + q2 * q2 + q3 * q3 ->
  mx_rows M = 3%nat -> mx_cols M = 3%nat ->
  exists A, computeDcmFromQuaternion_f F [q0; q1; q2; q3] M = Ret (true, MX_of_mat3 A) /\ close_to (30 * u64) A (qframe (q0, V3 q1 q2 q3)).
Proof.
  intros HF N R C. destruct (dcm_float F HF q0 q1 q2 q3 N) as (A & E & D). exists A. unfold computeDcmFromQuaternion_f. rewrite R, C. cbn [Nat.eqb andb]. rewrite E. cbn [bind].
  split; [reflexivity|]. intros v. rewrite <- dcm_qframe. 2:{ pose proof (bpow_gt_0 radix2 (-900)). unfold n2. lra. }
  replace (30 * u64) with (3 * (10 * u64)) by ring. revert v. apply (near_op (10 * u64) A (dcm q0 q1 q2 q3)). apply within_near. exact D.
Qed.
Lemma length4 (q : list R) : length q = 4%nat -> exists a b c d, q = [a; b; c; d].
Proof. destruct q as [|a [|b [|c [|d [|e q]]]]]; try discriminate. intros _. now exists a, b, c, d. Qed.
Lemma four (P : nat -> Prop) : (forall j, (j < 4)%nat -> P j) -> P 0%nat /\ P 1%nat /\ P 2%nat /\ P 3%nat.
Proof. intros H. repeat split; apply H; lia. Qed.
Lemma quat_fn F pow2 a b c d k A B q' : float_ok F -> pow2_ok pow2 -> a * a + b * b + c * c + d * d = 1 -> 0 <= k <= 100000000 ->
  (forall v, mvmul B v = qframe (a, V3 b c d) v) -> entries_within (k * u64) A B -> dominant ((2 * k + 8) * u64) [a; b; c; d] -> length q' = 4%nat ->
  exists s q, (s = 1 \/ s = -1) /\ computeQuaternionFromDcm_f F pow2 (MX_of_mat3 A) q' = Ret (true, q) /\
    list_within ((14 * k + 120) * u64) q [s * a; s * b; s * c; s * d].
Proof.
  intros HF HP U K HB HA (i & Hi & D) L.
  assert (EB : B = dcm a b c d). { apply mat3_ext. intros v. rewrite HB, dcm_qframe; [reflexivity|unfold n2; lra]. }
  subst B. apply within_near in HA. unfold computeQuaternionFromDcm_f. rewrite L. cbn [Nat.eqb mx_rows mx_cols MX_of_mat3 andb].
  replace (mat3_of_MX _) with A by (destruct A; reflexivity).
  assert (G : exists s, (s = 1 \/ s = -1) /\ exists q, quat_of_dcm_f F pow2 A = Ret q /\ list_within ((14 * k + 120) * u64) q [s * a; s * b; s * c; s * d]).
  { apply four in D. destruct D as (D0 & D1 & D2 & D3).
    destruct i as [|[|[|[|i]]]]; [| | | |lia]; cbn [nth] in *.
    - destruct (quat_float0 F HF pow2 HP a b c d k U A HA K) as (s & S1 & _ & q & Q); [unfold largest; repeat constructor; auto|]. exists s. split; auto. exists q. exact Q.
    - destruct (quat_float1 F HF pow2 HP a b c d k U A HA K) as (s & S1 & _ & q & Q); [unfold largest; repeat constructor; auto|]. exists s. split; auto. exists q. exact Q.
    - destruct (quat_float2 F HF pow2 HP a b c d k U A HA K) as (s & S1 & _ & q & Q); [unfold largest; repeat constructor; auto|]. exists s. split; auto. exists q. exact Q.
    - destruct (quat_float3 F HF pow2 HP a b c d k U A HA K) as (s & S1 & _ & q & Q); [unfold largest; repeat constructor; auto|]. exists s. split; auto. exists q. exact Q. }
  destruct G as (s & S & q & E & Q). exists s, q. rewrite E. auto.
Qed.
Lemma round_trip F pow2 a b c d M q' : float_ok F -> pow2_ok pow2 -> a * a + b * b + c * c + d * d = 1 -> dominant (28 * u64) [a; b; c; d] ->
  mx_rows M = 3%nat -> mx_cols M = 3%nat -> length q' = 4%nat ->
  exists A s q, computeDcmFromQuaternion_f F [a; b; c; d] M = Ret (true, A) /\ computeQuaternionFromDcm_f F pow2 A q' = Ret (true, q) /\
    (s = 1 \/ s = -1) /\ list_within (260 * u64) q [s * a; s * b; s * c; s * d].
Proof.
  intros HF HP U D R C L.
  assert (N : bpow radix2 (-900) <= n2 a b c d) by (unfold n2; rewrite U; apply (bpow_le radix2 (-900) 0); lia).
  destruct (dcm_float F HF a b c d N) as (A & E & H).
  assert (N0 : n2 a b c d <> 0) by (unfold n2; lra).
  destruct (quat_fn F pow2 a b c d 10 A (dcm a b c d) q' HF HP U ltac:(lra) (fun v => dcm_qframe a b c d v N0) H) as (s & q & S & Q & W).
  - replace ((2 * 10 + 8) * u64) with (28 * u64) by ring. exact D.
  - exact L.
  - exists (MX_of_mat3 A), s, q. unfold computeDcmFromQuaternion_f. rewrite R, C. cbn [Nat.eqb andb]. rewrite E. cbn [bind].
    replace (260 * u64) with ((14 * 10 + 120) * u64) by ring. auto.
Qed.
Lemma rotvec_fn F fasin q0 q1 q2 q3 phi : float_ok F -> (forall x, -1 <= x <= 1 -> Rabs (fasin x - asin x) <= 4 * u64) ->
  2 / 1000000 <= norm (V3 q1 q2 q3) <= 995 / 1000 -> length phi = 3%nat ->
  exists p p', computeRotationVecFromQuaternion [q0; q1; q2; q3] phi = Ret (true, p) /\
    computeRotationVecFromQuaternion_f F fasin [q0; q1; q2; q3] phi = Ret (true, p') /\ list_within (200 * u64) p' p.
Proof.
  intros HF HS N L. destruct (rotvec_float F HF fasin HS q0 q1 q2 q3 N) as (p & p' & E & E' & W). exists p, p'.
  unfold computeRotationVecFromQuaternion, computeRotationVecFromQuaternion_f. rewrite L. cbn [Nat.eqb]. rewrite E, E'. auto.
Qed.
Lemma rotvec_fn_small F fasin q0 q1 q2 q3 phi : float_ok F -> (forall w, 0 <= fdot F w w) -> norm (V3 q1 q2 q3) <= 9 / 10000000 -> length phi = 3%nat ->
  computeRotationVecFromQuaternion_f F fasin [q0; q1; q2; q3] phi = Ret (true, [0; 0; 0]).
Proof. intros HF HP N L. unfold computeRotationVecFromQuaternion_f. rewrite L. cbn [Nat.eqb]. rewrite (rotvec_small F HF); auto. Qed.
Lemma rotquat_fn F p0 p1 p2 q0 : float_ok F -> bpow radix2 (-400) <= norm (V3 p0 p1 p2) <= 10 -> length q0 = 4%nat ->
  exists q q', computeQuaternionFromRotationVec [p0; p1; p2] q0 = Ret (true, q) /\
    computeQuaternionFromRotationVec_f F [p0; p1; p2] q0 = Ret (true, q') /\ list_within (40 * u64) q' q.
Proof.
  intros HF N L. destruct (quat_rot_float F HF p0 p1 p2 N) as (q & q' & E & E' & W). exists q, q'.
  unfold computeQuaternionFromRotationVec, computeQuaternionFromRotationVec_f. rewrite L. cbn [Nat.eqb]. rewrite E, E'. auto.
Qed.
Lemma dot64_pos w : 0 <= fdot binary64_ops w w.
Proof.
  cbn [binary64_ops fdot]. assert (P : forall x, 0 <= x -> 0 <= rnd64 x) by (intros; rewrite <- rnd64_0; now apply rnd64_le).
  pose proof (Rle_0_sqr (vx w)). pose proof (Rle_0_sqr (vy w)). pose proof (Rle_0_sqr (vz w)). unfold Rsqr in *.
  apply P, Rplus_le_le_0_compat; [apply P, Rplus_le_le_0_compat|]; apply P; assumption.
Qed.

(** Near a half turn the sine of the half angle rounds to one. *)
Definition t27 : R := bpow radix2 (-27).
Lemma t27_val : t27 = / 134217728. Proof. reflexivity. Qed.
Lemma half_turn_blunt : exists theta, 0 < theta < PI /\ forall fasin, Rabs (fasin 1 - asin 1) <= 4 * u64 ->
  exists x, computeRotationVecFromQuaternion_f binary64_ops fasin [rnd64 (cos (theta / 2)); rnd64 (sin (theta / 2)); 0; 0] [0; 0; 0] = Ret (true, [x; 0; 0]) /\
    / 100000000 <= Rabs (Rabs x - theta).
Proof.
  exists (PI - 2 * t27). pose proof PI_bounds as P. pose proof t27_val as T. split; [lra|]. intros fasin HS. rewrite asin_1 in HS.
  replace ((PI - 2 * t27) / 2) with (PI / 2 - t27) by field. rewrite cos_shift, sin_shift.
  assert (C1 : rnd64 (cos t27) = 1).
  { apply near1. rewrite Rabs_left1 by (pose proof (COS_bound t27); lra). pose proof (cos_low t27 ltac:(lra)) as L. change (bpow radix2 (-54)) with (/ 18014398509481984). rewrite T in *. lra. }
  assert (S0 : 0 <= rnd64 (sin t27)) by (rewrite <- rnd64_0; apply rnd64_le, Rlt_le, sin_gt_0; lra).
  rewrite C1. unfold computeRotationVecFromQuaternion_f, rotvec_of_quat_f. cbn [length Nat.eqb]. cbv zeta. cbn [binary64_ops frnd fdot].
  destruct (Rlt_dec (rnd64 (sin t27)) 0) as [B|_]; [lra|]. cbn [vx vy vz]. rewrite !Rmult_0_l, Rmult_1_l. repeat (rewrite rnd64_0 || rewrite rnd64_1 || rewrite Rplus_0_r).
  unfold sqrtc. destruct (Rlt_dec 1 0) as [B|_]; [lra|]. cbn [bind]. rewrite sqrt_1, rnd64_1.
  assert (Th : rnd64 (1 / 1000000) < 1).
  { pose proof (thr_err binary64_ops binary64_ok) as E. cbn [binary64_ops frnd] in E. apply Rabs_le_inv in E. lra. }
  destruct (Rlt_dec _ 1) as [_|B]; [|lra]. rewrite !Rdivc_ok by lra. cbn [bind]. unfold asinc_f. destruct (Rlt_dec 1 (-1)) as [B|_]; [lra|]. destruct (Rlt_dec 1 1) as [B|_]; [lra|]. cbn [bind].
  unfold Rdiv at 1 2 3. rewrite !Rmult_0_l, rnd64_0, !Rmult_0_r, rnd64_0, Rinv_1, Rmult_1_l, rnd64_1, Rmult_1_r, rnd64_idem.
  eexists. split; [reflexivity|].
  pose proof u64_bounds as U. set (y := -2 * fasin 1).
  assert (Y : ap (rnd64 y) (- PI) 20 4).
  { assert (A : ap y (- PI) 8 4).
    { split; [|rewrite Rabs_Ropp, Rabs_right; lra]. unfold y. replace (-2 * fasin 1 - - PI) with (-2 * (fasin 1 - PI / 2)) by field. rewrite Rabs_mult, (Rabs_left (-2)) by lra. lra. }
    eapply ap_le; [exact (ap_rnd binary64_ops binary64_ok _ _ _ _ A)| |]; num. }
  destruct Y as (Y & _). apply Rabs_le_inv in Y. rewrite (Rabs_left (rnd64 y)) by lra. rewrite Rabs_right; lra.
Qed.
