(** Lemmas about the Attitude model, continued: DCM to quaternion, rotation
    vectors, Euler angles, size guards. *)
From Coq Require Import Reals List Lra Lia Psatz.
From Verif Require Import Base BaseVec SpecRot ModelAttitude ProofVec ProofAttitude.
Import ListNotations.
Open Scope R_scope.

(** ** DCM to quaternion *)

Lemma n2_one_nz a b c d : a*a + b*b + c*c + d*d = 1 -> [a;b;c;d] <> [0;0;0;0].
Proof. intros H E. injection E as -> -> -> ->. lra. Qed.

Lemma dcm_neg a b c d : dcm (-a) (-b) (-c) (-d) = dcm a b c d.
Proof. unfold dcm, n2. repeat rewrite Rmult_opp_opp. reflexivity. Qed.

Lemma quaternion_from_dcm_of_quaternion : forall a b c d M M' q,
  a*a + b*b + c*c + d*d = 1 ->
  mx_rows M = 3%nat -> mx_cols M = 3%nat -> length q = 4%nat ->
  computeDcmFromQuaternion [a;b;c;d] M = Ret (true, M') ->
  (~ tie a b c d ->
     computeQuaternionFromDcm M' q = Ret (true, [a;b;c;d]) \/
     computeQuaternionFromDcm M' q = Ret (true, [-a;-b;-c;-d])) /\
  (tie a b c d -> computeQuaternionFromDcm M' q = NonFinite).
Proof.
  intros a b c d M M' q Hn Hr Hc Hq E.
  rewrite computeDcm_ok in E by auto using n2_one_nz. apply Ret_true_inj in E as <-.
  unfold computeQuaternionFromDcm. rewrite Hq. cbn [Nat.eqb].
  change (mx_rows (MX_of_mat3 (dcm a b c d))) with 3%nat.
  change (mx_cols (MX_of_mat3 (dcm a b c d))) with 3%nat.
  cbn [Nat.eqb andb]. rewrite mat3_of_MX_of_mat3.
  destruct (quat_of_dcm_dcm a b c d Hn) as [[T ->]|[T [-> | ->]]]; split; intros; cbn; tauto.
Qed.

Lemma quaternion_from_rotation : forall M M3 q,
  is_rotation (mat3_of_MX M) -> mx_rows M = 3%nat -> mx_cols M = 3%nat -> length q = 4%nat ->
  mx_rows M3 = 3%nat -> mx_cols M3 = 3%nat ->
  exists a b c d, a*a + b*b + c*c + d*d = 1 /\
    computeDcmFromQuaternion [a;b;c;d] M3 = Ret (true, MX_of_mat3 (mat3_of_MX M)) /\
    (~ tie a b c d -> computeQuaternionFromDcm M q = Ret (true, [a;b;c;d])) /\
    (tie a b c d -> computeQuaternionFromDcm M q = NonFinite).
Proof.
  intros M M3 q HR Hr Hc Hq H3r H3c.
  destruct (dcm_surjective _ HR) as (a & b & c & d & Hn & E).
  unfold computeQuaternionFromDcm. rewrite Hq, Hr, Hc; cbn [Nat.eqb andb]. rewrite <- E.
  assert (T' : tie (-a) (-b) (-c) (-d) <-> tie a b c d).
  { unfold tie. rewrite !Rmult_opp_opp. intuition lra. }
  destruct (quat_of_dcm_dcm a b c d Hn) as [[T X]|[T [X|X]]]; rewrite X; cbn [bind].
  - exists a, b, c, d. rewrite computeDcm_ok by auto using n2_one_nz. repeat split; tauto.
  - exists a, b, c, d. rewrite computeDcm_ok by auto using n2_one_nz. repeat split; tauto.
  - exists (-a), (-b), (-c), (-d). unfold n2 in Hn.
    assert (-a * -a + -b * -b + -c * -c + -d * -d = 1) by lra.
    rewrite computeDcm_ok by auto using n2_one_nz. rewrite dcm_neg. repeat split; tauto.
Qed.

Lemma quaternion_from_dcm_refuted :
  exists M, is_rotation (mat3_of_MX M) /\ mx_rows M = 3%nat /\ mx_cols M = 3%nat /\
    forall q, length q = 4%nat -> computeQuaternionFromDcm M q = NonFinite.
Proof.
  exists (MX_of_mat3 (M3 1 0 0 0 0 1 0 (-1) 0)). rewrite mat3_of_MX_of_mat3.
  assert (H : is_rotation (M3 1 0 0 0 0 1 0 (-1) 0)).
  { apply rotation_of_matrix; unvec; [apply m3_eq|]; ring. }
  repeat split; try apply H. intros q Hq.
  unfold computeQuaternionFromDcm. rewrite Hq; cbn [Nat.eqb mx_rows mx_cols MX_of_mat3 andb].
  change (MX 3 3 _) with (MX_of_mat3 (M3 1 0 0 0 0 1 0 (-1) 0)).
  rewrite mat3_of_MX_of_mat3. unfold quat_of_dcm; cbn [m11 m12 m13 m21 m22 m23 m31 m32 m33].
  rewrite (Rltb'_false (0.25 * (1 + 1 - 0 - 0))) by lra.
  rewrite (Rltb'_false (0.25 * (1 + 1 + 0 + 0))) by lra. cbn [andb].
  rewrite (Rltb'_false (0.25 * (1 + 1 + 0 + 0)) (0.25 * (1 - 1 + 0 - 0))) by lra. cbn [andb].
  rewrite sqrtc_ok by lra. cbn. replace (0.25 * (1 - 1 - 0 + 0)) with 0 by lra.
  now rewrite sqrt_0, Rmult_0_r, Rdivc_0.
Qed.

(** ** Rotation vector to quaternion *)

Lemma dcm_axis n h : dot n n = 1 ->
  dcm (cos h) (sin h * vx n) (sin h * vy n) (sin h * vz n) = axis_matrix n (- (2 * h)).
Proof.
  intros Hn. destruct n as [x y z]; unvec.
  assert (N : n2 (cos h) (sin h * x) (sin h * y) (sin h * z) = 1).
  { unfold n2. pose proof (cs1 h).
    transitivity (cos h * cos h + sin h * sin h * (x*x+y*y+z*z)); [ring|]. rewrite Hn. lra. }
  unfold dcm. rewrite N, Rinv_1. unfold axis_matrix; unvec.
  rewrite cos_neg, sin_neg, cos_2a, sin_2a.
  assert (Hz : z * z = 1 - x * x - y * y) by lra.
  pose proof (ss1 h) as Hs. set (C := cos h) in *; set (S := sin h) in *; clearbody C S.
  apply m3_eq; ring [Hz Hs].
Qed.

Lemma unit_axis u : u <> v3zero -> dot (vscale (/ norm u) u) (vscale (/ norm u) u) = 1.
Proof.
  intros H. pose proof (norm_pos u H). pose proof (norm_sq u) as E.
  replace (dot (vscale (/ norm u) u) (vscale (/ norm u) u)) with (/ norm u * / norm u * dot u u) by vec_ring.
  rewrite <- E. field; lra.
Qed.

Lemma quat_of_rotvec_ok p0 p1 p2 : V3 p0 p1 p2 <> v3zero ->
  let t := norm (V3 p0 p1 p2) in let n := vscale (/ t) (V3 p0 p1 p2) in
  quat_of_rotvec p0 p1 p2 =
  Ret [cos (t/2); sin (t/2) * vx n; sin (t/2) * vy n; sin (t/2) * vz n].
Proof.
  intros H t n. unfold quat_of_rotvec.
  pose proof (norm_pos _ H) as Ht. fold t in Ht.
  rewrite sqrtc_ok by nra. change (sqrt (p0*p0+p1*p1+p2*p2)) with t. cbn [bind].
  rewrite Rdivc_ok by lra. cbn [bind]. f_equal. unfold n; cbn [vx vy vz vscale]. list_field.
Qed.

Lemma quaternion_from_rotation_vector : forall p0 p1 p2 q M,
  V3 p0 p1 p2 <> v3zero -> length q = 4%nat -> mx_rows M = 3%nat -> mx_cols M = 3%nat ->
  let phi := V3 p0 p1 p2 in
  exists a b c d R,
    computeQuaternionFromRotationVec [p0;p1;p2] q = Ret (true, [a;b;c;d]) /\
    a*a + b*b + c*c + d*d = 1 /\
    computeDcmFromQuaternion [a;b;c;d] M = Ret (true, MX_of_mat3 R) /\
    mvmul R phi = phi /\
    (forall v, mvmul R v = rotate (vscale (/ norm phi) phi) (- norm phi) v).
Proof.
  intros p0 p1 p2 q M H Hq Hr Hc phi.
  set (t := norm phi). set (n := vscale (/ t) phi).
  pose proof (unit_axis _ H) as Hn. fold phi t n in Hn.
  exists (cos (t/2)), (sin (t/2) * vx n), (sin (t/2) * vy n), (sin (t/2) * vz n), (axis_matrix n (- t)).
  assert (N : cos (t/2) * cos (t/2) + sin (t/2) * vx n * (sin (t/2) * vx n) +
     sin (t/2) * vy n * (sin (t/2) * vy n) + sin (t/2) * vz n * (sin (t/2) * vz n) = 1).
  { pose proof (cs1 (t/2)). unfold dot in Hn.
    transitivity (cos (t/2) * cos (t/2) + sin (t/2) * sin (t/2) * (vx n * vx n + vy n * vy n + vz n * vz n)); [ring|].
    rewrite Hn. lra. }
  split; [|split; [exact N|split; [|split]]].
  - unfold computeQuaternionFromRotationVec. rewrite Hq; cbn [Nat.eqb].
    rewrite quat_of_rotvec_ok by exact H. reflexivity.
  - rewrite computeDcm_ok by auto using n2_one_nz. do 3 f_equal.
    rewrite dcm_axis by exact Hn. f_equal. field.
  - rewrite axis_matrix_rotate.
    pose proof (norm_pos _ H) as Ht. fold phi t in Ht.
    assert (E : phi = vscale t n).
    { unfold n. destruct phi; unfold vscale; cbn. apply v3_eq; field; lra. }
    clearbody n. rewrite E. unfold rotate. destruct n as [x y z]; unvec.
    assert (Hz : z * z = 1 - x * x - y * y) by lra.
    apply v3_eq; ring [Hz].
  - intros v. now rewrite axis_matrix_rotate.
Qed.

Lemma quaternion_from_zero_rotation_vector : forall q, length q = 4%nat ->
  computeQuaternionFromRotationVec [0;0;0] q = NonFinite.
Proof.
  intros q Hq. unfold computeQuaternionFromRotationVec, quat_of_rotvec. rewrite Hq; cbn [Nat.eqb].
  rewrite sqrtc_ok by lra. cbn [bind]. replace (0*0+0*0+0*0) with 0 by ring.
  now rewrite sqrt_0, Rdivc_0.
Qed.

(** ** Quaternion to rotation vector *)

Lemma rotvec_of_quat_pos q0 q1 q2 q3 : 0 <= q0 ->
  1/1000000 < norm (V3 q1 q2 q3) <= 1 ->
  let L := norm (V3 q1 q2 q3) in
  rotvec_of_quat q0 q1 q2 q3 =
  Ret [-2 * asin L * (q1 / L); -2 * asin L * (q2 / L); -2 * asin L * (q3 / L)].
Proof.
  intros H0 HL L. unfold rotvec_of_quat. destruct (Rlt_dec q0 0) as [?|_]; [lra|].
  fold L in HL |- *. destruct (Rlt_dec (1/1000000) L) as [_|?]; [|lra].
  cbn [vx vy vz]. rewrite !Rdivc_ok by lra. cbn [bind]. rewrite asinc_ok by lra. reflexivity.
Qed.
Lemma norm_vneg u : norm (vneg u) = norm u.
Proof. unfold norm. f_equal. vec_ring. Qed.
Lemma rotvec_of_quat_neg q0 q1 q2 q3 : q0 < 0 ->
  rotvec_of_quat q0 q1 q2 q3 = rotvec_of_quat (-q0) (-q1) (-q2) (-q3).
Proof.
  intros H. unfold rotvec_of_quat. destruct (Rlt_dec q0 0); [|lra]. destruct (Rlt_dec (-q0) 0); [lra|].
  replace (q1 * -1) with (-q1) by ring. replace (q2 * -1) with (-q2) by ring.
  replace (q3 * -1) with (-q3) by ring. reflexivity.
Qed.

Lemma rotation_vector_sign_invariant : forall q0 q1 q2 q3 phi, q0 <> 0 ->
  computeRotationVecFromQuaternion [-q0;-q1;-q2;-q3] phi =
  computeRotationVecFromQuaternion [q0;q1;q2;q3] phi.
Proof.
  intros. unfold computeRotationVecFromQuaternion.
  destruct (Nat.eqb (length phi) 3); [|reflexivity].
  destruct (Rlt_dec q0 0).
  - now rewrite (rotvec_of_quat_neg q0) by lra.
  - rewrite (rotvec_of_quat_neg (-q0)) by lra. now rewrite !Ropp_involutive.
Qed.

Lemma rotation_vector_small : forall q0 q1 q2 q3 phi, length phi = 3%nat ->
  sqrt (q1*q1 + q2*q2 + q3*q3) <= 1/1000000 ->
  computeRotationVecFromQuaternion [q0;q1;q2;q3] phi = Ret (true, [0;0;0]).
Proof.
  intros q0 q1 q2 q3 phi Hp HL. unfold computeRotationVecFromQuaternion. rewrite Hp; cbn [Nat.eqb].
  unfold rotvec_of_quat.
  set (v := if Rlt_dec q0 0 then _ else _).
  assert (norm v = sqrt (q1*q1 + q2*q2 + q3*q3)) as ->.
  { unfold v; destruct (Rlt_dec q0 0); unfold norm, dot; cbn; f_equal; ring. }
  destruct (Rlt_dec (1/1000000) (sqrt (q1*q1 + q2*q2 + q3*q3))); [lra|].
  cbn. now rewrite !Rmult_0_l.
Qed.

Lemma rotation_vector_too_long : forall q0 q1 q2 q3 phi, length phi = 3%nat ->
  1 < q1*q1 + q2*q2 + q3*q3 ->
  computeRotationVecFromQuaternion [q0;q1;q2;q3] phi = NonFinite.
Proof.
  intros q0 q1 q2 q3 phi Hp HL. unfold computeRotationVecFromQuaternion. rewrite Hp; cbn [Nat.eqb].
  unfold rotvec_of_quat.
  set (v := if Rlt_dec q0 0 then _ else _).
  assert (norm v = sqrt (q1*q1 + q2*q2 + q3*q3)) as ->.
  { unfold v; destruct (Rlt_dec q0 0); unfold norm, dot; cbn; f_equal; ring. }
  assert (1 < sqrt (q1*q1 + q2*q2 + q3*q3)).
  { rewrite <- sqrt_1. apply sqrt_lt_1; lra. }
  destruct (Rlt_dec (1/1000000) (sqrt (q1*q1 + q2*q2 + q3*q3))); [|lra].
  rewrite !Rdivc_ok by lra. cbn [bind]. rewrite asinc_out by lra. reflexivity.
Qed.

Lemma axis_matrix_neg n t : axis_matrix (vneg n) t = axis_matrix n (- t).
Proof. destruct n; unfold axis_matrix; unvec. rewrite cos_neg, sin_neg. apply m3_eq; ring. Qed.

(** Meaning of the returned vector: the DCM is the (active) rotation about it. *)
Lemma rotation_vector_meaning_pos : forall q0 q1 q2 q3 phi, 0 <= q0 ->
  q0*q0 + q1*q1 + q2*q2 + q3*q3 = 1 -> length phi = 3%nat ->
  1/1000000 < sqrt (q1*q1 + q2*q2 + q3*q3) ->
  exists r, computeRotationVecFromQuaternion [q0;q1;q2;q3] phi = Ret (true, [vx r; vy r; vz r]) /\
    0 < norm r <= PI /\
    dcm q0 q1 q2 q3 = axis_matrix (vscale (/ norm r) r) (norm r).
Proof.
  intros q0 q1 q2 q3 phi H0 Hn Hp HL.
  set (u := V3 q1 q2 q3). set (L := norm u).
  change (sqrt (q1*q1 + q2*q2 + q3*q3)) with L in HL.
  assert (HLL : L * L = q1*q1 + q2*q2 + q3*q3) by apply norm_sq.
  assert (HL1 : L <= 1) by nra.
  assert (u <> v3zero).
  { intros E. unfold L in HL. rewrite E, norm_zero in HL. lra. }
  set (n := vscale (/ L) u). assert (Hu : dot n n = 1) by now apply unit_axis.
  set (h := asin L).
  assert (Hs : sin h = L) by (apply sin_asin; lra).
  assert (Hh : 0 < h <= PI/2).
  { split; [|apply asin_bound]. unfold h. rewrite <- asin_0. apply asin_lt; lra. }
  assert (Hc : cos h = q0).
  { pose proof (cs1 h) as E. rewrite Hs in E. assert (0 <= cos h) by (apply cos_ge_0; lra). nra. }
  exists (vscale (-(2*h)) n).
  assert (Hnr : norm (vscale (-(2*h)) n) = 2*h).
  { rewrite norm_scale. unfold norm. rewrite Hu, sqrt_1, Rmult_1_r.
    rewrite Rabs_left; lra. }
  split; [|split].
  - unfold computeRotationVecFromQuaternion. rewrite Hp; cbn [Nat.eqb].
    rewrite rotvec_of_quat_pos by (try exact H0; fold u; fold L; lra). fold u. fold L. cbn [bind].
    fold h. unfold n, u; cbn [vscale vx vy vz]. do 2 f_equal. list_field.
  - rewrite Hnr. lra.
  - rewrite Hnr.
    replace (vscale (/ (2*h)) (vscale (-(2*h)) n)) with (vneg n).
    2:{ destruct n; unvec. apply v3_eq; field; lra. }
    rewrite axis_matrix_neg, <- (dcm_axis n h) by exact Hu. rewrite Hs, Hc.
    unfold n, u; cbn [vscale vx vy vz]. f_equal; field; lra.
Qed.

Lemma rotation_vector_meaning : forall q0 q1 q2 q3 phi M,
  q0*q0 + q1*q1 + q2*q2 + q3*q3 = 1 -> length phi = 3%nat ->
  mx_rows M = 3%nat -> mx_cols M = 3%nat ->
  1/1000000 < sqrt (q1*q1 + q2*q2 + q3*q3) ->
  exists r R, computeRotationVecFromQuaternion [q0;q1;q2;q3] phi = Ret (true, [vx r; vy r; vz r]) /\
    0 < norm r <= PI /\
    computeDcmFromQuaternion [q0;q1;q2;q3] M = Ret (true, MX_of_mat3 R) /\
    forall v, mvmul R v = rotate (vscale (/ norm r) r) (norm r) v.
Proof.
  intros q0 q1 q2 q3 phi M Hn Hp Hr Hc HL.
  destruct (Rle_dec 0 q0) as [H0|H0].
  - destruct (rotation_vector_meaning_pos _ _ _ _ phi H0 Hn Hp HL) as (r & E & B & D).
    exists r, (dcm q0 q1 q2 q3). rewrite computeDcm_ok by auto using n2_one_nz.
    repeat split; auto; try lra. intros; now rewrite D, axis_matrix_rotate.
  - assert (Hn' : -q0 * -q0 + -q1 * -q1 + -q2 * -q2 + -q3 * -q3 = 1) by lra.
    assert (HL' : 1/1000000 < sqrt (-q1 * -q1 + -q2 * -q2 + -q3 * -q3)) by (rewrite !Rmult_opp_opp; lra).
    assert (H0' : 0 <= -q0) by lra.
    destruct (rotation_vector_meaning_pos _ _ _ _ phi H0' Hn' Hp HL') as (r & E & B & D).
    exists r, (dcm q0 q1 q2 q3). rewrite computeDcm_ok by auto using n2_one_nz.
    rewrite rotation_vector_sign_invariant in E by lra. rewrite dcm_neg in D.
    repeat split; auto; try lra. intros; now rewrite D, axis_matrix_rotate.
Qed.

Lemma rotation_vector_bounded : forall q0 q1 q2 q3 phi,
  q0*q0 + q1*q1 + q2*q2 + q3*q3 = 1 -> length phi = 3%nat ->
  exists r, computeRotationVecFromQuaternion [q0;q1;q2;q3] phi = Ret (true, [vx r; vy r; vz r]) /\
    norm r <= PI.
Proof.
  intros q0 q1 q2 q3 phi Hn Hp.
  destruct (Rlt_dec (1/1000000) (sqrt (q1*q1 + q2*q2 + q3*q3))) as [HL|HL].
  - destruct (rotation_vector_meaning q0 q1 q2 q3 phi (MX 3 3 (fun _ _ => 0)) Hn Hp eq_refl eq_refl HL)
      as (r & R & E & B & _). exists r; tauto.
  - exists v3zero. rewrite norm_zero. split; [|pose proof PI_RGT_0; lra].
    apply rotation_vector_small; auto; lra.
Qed.

(** ** Round trip *)

Lemma rotation_vector_round_trip : forall p0 p1 p2 q r,
  length q = 4%nat -> length r = 3%nat ->
  2 * asin (1/1000000) < norm (V3 p0 p1 p2) <= PI ->
  exists q', computeQuaternionFromRotationVec [p0;p1;p2] q = Ret (true, q') /\
    computeRotationVecFromQuaternion q' r = Ret (true, [-p0;-p1;-p2]).
Proof.
  intros p0 p1 p2 q r Hq Hr Ht.
  assert (A0 : 0 < asin (1/1000000)).
  { rewrite <- asin_0. apply asin_lt; lra. }
  set (phi := V3 p0 p1 p2) in *. set (t := norm phi) in *.
  assert (Hz : phi <> v3zero).
  { intros E. unfold t in Ht. rewrite E, norm_zero in Ht. lra. }
  set (n := vscale (/ t) phi).
  pose proof (unit_axis _ Hz) as Hn. fold t n in Hn.
  eexists; split.
  - unfold computeQuaternionFromRotationVec. rewrite Hq; cbn [Nat.eqb].
    rewrite quat_of_rotvec_ok by exact Hz. cbn [bind]. reflexivity.
  - fold phi. fold t. fold n.
    unfold computeRotationVecFromQuaternion. rewrite Hr; cbn [Nat.eqb].
    assert (Hs0 : 0 < sin (t/2)) by (apply sin_gt_0; pose proof PI_RGT_0; lra).
    assert (HL : norm (V3 (sin (t/2) * vx n) (sin (t/2) * vy n) (sin (t/2) * vz n)) = sin (t/2)).
    { change (V3 _ _ _) with (vscale (sin (t/2)) n). rewrite norm_scale. unfold norm. rewrite Hn, sqrt_1.
      rewrite Rabs_right; lra. }
    assert (HS : 1/1000000 < sin (t/2)).
    { rewrite <- (sin_asin (1/1000000)) by lra. pose proof (asin_bound (1/1000000)).
      apply sin_increasing_1; lra. }
    pose proof (SIN_bound (t/2)).
    rewrite rotvec_of_quat_pos.
    + rewrite HL. cbn [bind].
      rewrite asin_sin by (pose proof PI_RGT_0; lra).
      unfold n, phi; cbn [vscale vx vy vz]. do 2 f_equal. list_field.
    + apply cos_ge_0; lra.
    + rewrite HL. lra.
Qed.

Lemma asin_tiny : 2 * asin (1/1000000) < 2.
Proof.
  assert (asin (1/1000000) < asin (1/2)) by (apply asin_lt; lra).
  rewrite <- sin_PI6, asin_sin in H by (pose proof PI_RGT_0; lra). pose proof PI_4. lra.
Qed.

Lemma rotation_vector_round_trip_refuted :
  exists p0 p1 p2, 2 * asin (1/1000000) < norm (V3 p0 p1 p2) <= PI /\
  forall q r, length q = 4%nat -> length r = 3%nat ->
  exists q', computeQuaternionFromRotationVec [p0;p1;p2] q = Ret (true, q') /\
    computeRotationVecFromQuaternion q' r <> Ret (true, [p0;p1;p2]).
Proof.
  exists 2, 0, 0.
  assert (N : norm (V3 2 0 0) = 2).
  { unfold norm, dot; cbn [vx vy vz]. replace (2*2+0*0+0*0) with (2*2) by ring. apply sqrt_square; lra. }
  assert (B : 2 * asin (1/1000000) < norm (V3 2 0 0) <= PI).
  { rewrite N. pose proof asin_tiny. pose proof PI2_3_2. lra. }
  split; [exact B|]. intros q r Hq Hr.
  destruct (rotation_vector_round_trip 2 0 0 q r Hq Hr B) as (q' & E & E').
  exists q'. split; [exact E|]. rewrite E'. intros Z. injection Z. lra.
Qed.

(** ** Euler angles *)

Lemma rot_z_rotation t : is_rotation (euler_R3 t).
Proof.
  apply rotation_of_matrix; unfold euler_R3; unvec; pose proof (ss1 t) as H;
  set (C := cos t) in *; set (S := sin t) in *; clearbody C S; [apply m3_eq|]; ring [H].
Qed.
Lemma rot_y_rotation t : is_rotation (euler_R2 t).
Proof.
  apply rotation_of_matrix; unfold euler_R2; unvec; pose proof (ss1 t) as H;
  set (C := cos t) in *; set (S := sin t) in *; clearbody C S; [apply m3_eq|]; ring [H].
Qed.
Lemma rot_x_rotation t : is_rotation (euler_R1 t).
Proof.
  apply rotation_of_matrix; unfold euler_R1; unvec; pose proof (ss1 t) as H;
  set (C := cos t) in *; set (S := sin t) in *; clearbody C S; [apply m3_eq|]; ring [H].
Qed.

Lemma euler_matrix_rotation e : is_rotation (snd (euler2Dcm e)).
Proof.
  cbn. apply rotation_mmul; [apply rotation_mmul|].
  apply rot_x_rotation. apply rot_y_rotation. apply rot_z_rotation.
Qed.

Lemma rotate_ex t a b c : rotate ex t (V3 a b c) = V3 a (cos t * b - sin t * c) (sin t * b + cos t * c).
Proof. unfold rotate; unvec. apply v3_eq; ring. Qed.
Lemma rotate_ey t a b c : rotate ey t (V3 a b c) = V3 (cos t * a + sin t * c) b (cos t * c - sin t * a).
Proof. unfold rotate; unvec. apply v3_eq; ring. Qed.
Lemma rotate_ez t a b c : rotate ez t (V3 a b c) = V3 (cos t * a - sin t * b) (sin t * a + cos t * b) c.
Proof. unfold rotate; unvec. apply v3_eq; ring. Qed.

(** The transpose of the returned matrix maps body axes to their NED directions. *)
Lemma euler_matrix_transposed r p h b :
  mvmul (mtr (snd (euler2Dcm (V3 r p h)))) b = body_axis r p h b.
Proof.
  cbn [snd euler2Dcm vx vy vz]. rewrite !mtr_mmul, !mvmul_mmul. unfold body_axis.
  destruct b as [b1 b2 b3].
  assert (E1 : mvmul (mtr (euler_R1 r)) (V3 b1 b2 b3) = rotate ex r (V3 b1 b2 b3)).
  { rewrite rotate_ex. unfold euler_R1; unvec. apply v3_eq; ring. }
  rewrite E1. destruct (rotate ex r (V3 b1 b2 b3)) as [c1 c2 c3].
  assert (E2 : mvmul (mtr (euler_R2 p)) (V3 c1 c2 c3) = rotate ey p (V3 c1 c2 c3)).
  { rewrite rotate_ey. unfold euler_R2; unvec. apply v3_eq; ring. }
  rewrite E2. destruct (rotate ey p (V3 c1 c2 c3)) as [d1 d2 d3].
  rewrite rotate_ez. unfold euler_R3; unvec. apply v3_eq; ring.
Qed.

Lemma body_x r p h : body_axis r p h ex = V3 (cos p * cos h) (cos p * sin h) (- sin p).
Proof.
  unfold body_axis. unfold ex at 2. rewrite rotate_ex, rotate_ey, rotate_ez. apply v3_eq; ring.
Qed.
Lemma body_y r p h : body_axis r p h ey =
  V3 (sin r * sin p * cos h - cos r * sin h) (sin r * sin p * sin h + cos r * cos h) (sin r * cos p).
Proof.
  unfold body_axis. unfold ey at 2. rewrite rotate_ex, rotate_ey, rotate_ez. apply v3_eq; ring.
Qed.
Lemma body_z r p h : body_axis r p h ez =
  V3 (cos r * sin p * cos h + sin r * sin h) (cos r * sin p * sin h - sin r * cos h) (cos r * cos p).
Proof.
  unfold body_axis. unfold ez at 2. rewrite rotate_ex, rotate_ey, rotate_ez. apply v3_eq; ring.
Qed.

Lemma euler_R12 r p : mmul (euler_R1 r) (euler_R2 p) =
  M3 (cos p) 0 (- sin p) (sin r * sin p) (cos r) (sin r * cos p) (cos r * sin p) (- sin r) (cos r * cos p).
Proof. unfold euler_R1, euler_R2; unvec. apply m3_eq; ring. Qed.

Lemma euler_entries r p h : let A := snd (euler2Dcm (V3 r p h)) in
  m11 A = cos p * cos h /\ m12 A = cos p * sin h /\ m13 A = - sin p /\
  m23 A = sin r * cos p /\ m33 A = cos r * cos p.
Proof.
  cbn [snd euler2Dcm vx vy vz]. rewrite euler_R12. unfold euler_R3; unvec. repeat split; ring.
Qed.

Lemma euler_direction_refuted :
  exists r p h, mvmul (snd (euler2Dcm (V3 r p h))) ex <> V3 (cos p * cos h) (cos p * sin h) (- sin p).
Proof.
  exists 0, 0, (PI/2).
  cbn [snd euler2Dcm vx vy vz]. rewrite euler_R12. unfold euler_R3; unvec.
  rewrite !cos_0, !sin_0, !cos_PI2, !sin_PI2. intros H. injection H; intros. lra.
Qed.

Lemma dcm2Euler_gen r p h e0 :
  -(PI/2) < p < PI/2 ->
  1/1000000000 <= Rabs (cos p * cos h) -> 1/1000000000 <= Rabs (cos r * cos p) ->
  dcm2Euler (snd (euler2Dcm (V3 r p h))) e0 =
  Ret (true, V3 (atan (tan r)) p (if Rlt_dec (atan (tan h)) 0 then atan (tan h) + PI else atan (tan h))).
Proof.
  intros Hp H1 H3. unfold dcm2Euler.
  destruct (euler_entries r p h) as (E11 & E12 & E13 & E23 & E33).
  set (A := snd (euler2Dcm (V3 r p h))) in *. clearbody A. rewrite E11, E12, E13, E23, E33.
  rewrite !Rltb'_false by lra. cbn [orb].
  pose proof (SIN_bound p). rewrite !Rltb'_false by lra. cbn [orb].
  assert (cos p * cos h <> 0) by (intros Z; rewrite Z, Rabs_R0 in H1; lra).
  assert (cos r * cos p <> 0) by (intros Z; rewrite Z, Rabs_R0 in H3; lra).
  assert (cos p <> 0 /\ cos h <> 0 /\ cos r <> 0) as (? & ? & ?).
  { repeat split; intros Z; rewrite Z in *; lra. }
  rewrite !Rdivc_ok by auto. cbn [bind]. rewrite asinc_ok by lra. cbn [bind].
  rewrite asin_opp, asin_sin by lra. rewrite Ropp_involutive.
  replace (sin r * cos p / (cos r * cos p)) with (tan r) by (unfold tan; field; auto).
  replace (cos p * sin h / (cos p * cos h)) with (tan h) by (unfold tan; field; auto).
  reflexivity.
Qed.

Lemma atan_tan' x : -(PI/2) < x < PI/2 -> atan (tan x) = x.
Proof. intros; apply atan_tan; lra. Qed.
Lemma tan_shift x : cos x <> 0 -> tan (x - PI) = tan x.
Proof.
  intros H. unfold tan. rewrite sin_minus, cos_minus, sin_PI, cos_PI. field. exact H.
Qed.

Lemma euler_round_trip : forall r p h e0,
  -(PI/2) < r < PI/2 -> -(PI/2) < p < PI/2 -> 0 <= h < PI ->
  1/1000000000 <= Rabs (cos p * cos h) -> 1/1000000000 <= Rabs (cos r * cos p) ->
  dcm2Euler (snd (euler2Dcm (V3 r p h))) e0 = Ret (true, V3 r p h).
Proof.
  intros r p h e0 Hr Hp Hh H1 H3. rewrite dcm2Euler_gen by auto.
  rewrite (atan_tan' r) by auto.
  assert (cos h <> 0).
  { intros Z. rewrite Z, Rmult_0_r, Rabs_R0 in H1. lra. }
  destruct (Rlt_dec h (PI/2)) as [L|L].
  - rewrite (atan_tan' h) by lra. destruct (Rlt_dec h 0); [lra|reflexivity].
  - assert (h <> PI/2) by (intros ->; rewrite cos_PI2 in *; lra).
    rewrite <- (tan_shift h) by auto. rewrite atan_tan' by lra.
    destruct (Rlt_dec (h - PI) 0); [|lra]. do 3 f_equal. ring.
Qed.

Lemma euler_round_trip_reversed : forall r p h e0,
  -(PI/2) < r < PI/2 -> -(PI/2) < p < PI/2 -> PI <= h < 2 * PI ->
  1/1000000000 <= Rabs (cos p * cos h) -> 1/1000000000 <= Rabs (cos r * cos p) ->
  dcm2Euler (snd (euler2Dcm (V3 r p h))) e0 = Ret (true, V3 r p (h - PI)).
Proof.
  intros r p h e0 Hr Hp Hh H1 H3. rewrite dcm2Euler_gen by auto.
  rewrite <- (euler_round_trip r p (h - PI) e0); auto; try lra.
  - rewrite dcm2Euler_gen; auto.
    + rewrite tan_shift; [reflexivity|].
      intros Z. rewrite Z, Rmult_0_r, Rabs_R0 in H1. lra.
    + rewrite cos_minus, cos_PI, sin_PI.
      replace (cos p * (cos h * -1 + sin h * 0)) with (- (cos p * cos h)) by ring.
      now rewrite Rabs_Ropp.
  - rewrite cos_minus, cos_PI, sin_PI.
    replace (cos p * (cos h * -1 + sin h * 0)) with (- (cos p * cos h)) by ring.
    now rewrite Rabs_Ropp.
Qed.

Lemma euler_round_trip_refuted : exists r p h,
  -(PI/2) < r < PI/2 /\ -(PI/2) < p < PI/2 /\ 0 <= h < 2*PI /\
  1/1000000000 <= Rabs (cos p * cos h) /\ 1/1000000000 <= Rabs (cos r * cos p) /\
  forall e0, dcm2Euler (snd (euler2Dcm (V3 r p h))) e0 <> Ret (true, V3 r p h).
Proof.
  exists 0, 0, PI. pose proof PI_RGT_0.
  assert (A : 1/1000000000 <= Rabs (cos 0 * cos PI)).
  { rewrite cos_0, cos_PI. rewrite Rabs_left; lra. }
  assert (B : 1/1000000000 <= Rabs (cos 0 * cos 0)).
  { rewrite cos_0. rewrite Rabs_right; lra. }
  repeat split; try lra; auto. intros e0.
  rewrite euler_round_trip_reversed by (auto; lra). intros Z. injection Z. lra.
Qed.

(** Rolls beyond 90 degrees come back shifted by 180 degrees. *)
Lemma euler_round_trip_inverted : forall r p h e0,
  PI/2 < r < PI -> -(PI/2) < p < PI/2 -> 0 <= h < PI ->
  1/1000000000 <= Rabs (cos p * cos h) -> 1/1000000000 <= Rabs (cos r * cos p) ->
  dcm2Euler (snd (euler2Dcm (V3 r p h))) e0 = Ret (true, V3 (r - PI) p h).
Proof.
  intros r p h e0 Hr Hp Hh H1 H3.
  assert (E : cos (r - PI) = - cos r) by (rewrite cos_minus, cos_PI, sin_PI; ring).
  assert (H3' : 1/1000000000 <= Rabs (cos (r - PI) * cos p)).
  { rewrite E, Ropp_mult_distr_l_reverse, Rabs_Ropp. exact H3. }
  rewrite <- (euler_round_trip (r - PI) p h e0) by (auto; lra).
  rewrite !dcm2Euler_gen by (auto; lra). rewrite tan_shift; [reflexivity|].
  intros Z. rewrite Z, Rmult_0_l, Rabs_R0 in H3. lra.
Qed.

(** dcm2Euler accepts exactly the matrices away from the two singularities and
    with an admissible sine; on rejection the output is untouched. *)
Lemma dcm2Euler_guard : forall A e,
  (exists e', dcm2Euler A e = Ret (true, e')) \/ dcm2Euler A e = Ret (false, e).
Proof.
  intros A e. unfold dcm2Euler.
  destruct (Rltb' (Rabs (m11 A)) _) eqn:E1; [now right|].
  destruct (Rltb' (Rabs (m33 A)) _) eqn:E2; [now right|]. cbn [orb].
  destruct (Rltb' 1 (m13 A)) eqn:E3; [now right|].
  destruct (Rltb' (m13 A) (-1)) eqn:E4; [now right|]. cbn [orb].
  apply Rltb'_niff in E1, E2, E3, E4. left.
  assert (m11 A <> 0) by (intros Z; rewrite Z, Rabs_R0 in E1; lra).
  assert (m33 A <> 0) by (intros Z; rewrite Z, Rabs_R0 in E2; lra).
  rewrite !Rdivc_ok by auto. cbn [bind]. rewrite asinc_ok by lra. cbn [bind]. eauto.
Qed.

Lemma dcm2Euler_reject_iff : forall A e,
  dcm2Euler A e = Ret (false, e) <->
  (Rabs (m11 A) < 1/1000000000 \/ Rabs (m33 A) < 1/1000000000 \/ m13 A < -1 \/ 1 < m13 A).
Proof.
  intros A e. unfold dcm2Euler.
  destruct (Rltb' (Rabs (m11 A)) _) eqn:E1; [apply Rltb'_iff in E1; cbn; tauto|].
  destruct (Rltb' (Rabs (m33 A)) _) eqn:E2; [apply Rltb'_iff in E2; cbn; tauto|]. cbn [orb].
  destruct (Rltb' 1 (m13 A)) eqn:E3; [apply Rltb'_iff in E3; cbn; tauto|].
  destruct (Rltb' (m13 A) (-1)) eqn:E4; [apply Rltb'_iff in E4; cbn; tauto|]. cbn [orb].
  apply Rltb'_niff in E1, E2, E3, E4.
  assert (m11 A <> 0) by (intros Z; rewrite Z, Rabs_R0 in E1; lra).
  assert (m33 A <> 0) by (intros Z; rewrite Z, Rabs_R0 in E2; lra).
  rewrite !Rdivc_ok by auto. cbn [bind]. rewrite asinc_ok by lra. cbn [bind].
  split; [discriminate|lra].
Qed.

(** ** Size guards *)

Lemma list4 (l : list R) : length l = 4%nat -> exists a b c d, l = [a;b;c;d].
Proof. destruct l as [|a [|b [|c [|d [|]]]]]; cbn; try discriminate. eauto. Qed.
Lemma list3 (l : list R) : length l = 3%nat -> exists a b c, l = [a;b;c].
Proof. destruct l as [|a [|b [|c [|]]]]; cbn; try discriminate. eauto. Qed.

Lemma bind_true {A B} (x : outcome A) (f : A -> B) (r : B) :
  (y <- x ;; Ret (true, f y)) <> Ret (false, r).
Proof. destruct x; discriminate. Qed.

Lemma match4 {A} (l : list R) (f : R -> R -> R -> R -> A) (g : A) :
  length l <> 4%nat -> match l with [a;b;c;d] => f a b c d | _ => g end = g.
Proof. destruct l as [|a [|b [|c [|d [|]]]]]; cbn; try reflexivity. intros H; now elim H. Qed.
Lemma match3 {A} (l : list R) (f : R -> R -> R -> A) (g : A) :
  length l <> 3%nat -> match l with [a;b;c] => f a b c | _ => g end = g.
Proof. destruct l as [|a [|b [|c [|]]]]; cbn; try reflexivity. intros H; now elim H. Qed.

Lemma dcm_guard : forall q M,
  (computeDcmFromQuaternion q M = Ret (false, M) <->
   ~ (length q = 4%nat /\ mx_rows M = 3%nat /\ mx_cols M = 3%nat)) /\
  (forall M', computeDcmFromQuaternion q M = Ret (false, M') -> M' = M).
Proof.
  intros q M. unfold computeDcmFromQuaternion.
  destruct (Nat.eq_dec (length q) 4) as [Hq|Hq].
  2:{ rewrite match4 by auto. split; [tauto|congruence]. }
  destruct (list4 q Hq) as (a & b & c & d & ->).
  destruct (Nat.eqb_spec (mx_rows M) 3); destruct (Nat.eqb_spec (mx_cols M) 3); cbn [andb];
    split; try congruence; try (split; [tauto|reflexivity]).
  all: try (split; [intros H; (discriminate || now apply bind_true in H || now apply (bind_true _ (fun q => q)) in H)|tauto]).
  all: try (intros X' H; now apply bind_true in H).
  all: try (intros X' H; now apply (bind_true _ (fun q => q)) in H).
Qed.

Lemma quat_guard : forall M q,
  (computeQuaternionFromDcm M q = Ret (false, q) <->
   ~ (length q = 4%nat /\ mx_rows M = 3%nat /\ mx_cols M = 3%nat)) /\
  (forall q', computeQuaternionFromDcm M q = Ret (false, q') -> q' = q).
Proof.
  intros M q. unfold computeQuaternionFromDcm.
  destruct (Nat.eqb_spec (length q) 4); destruct (Nat.eqb_spec (mx_rows M) 3);
  destruct (Nat.eqb_spec (mx_cols M) 3); cbn [andb];
    split; try congruence; try (split; [tauto|reflexivity]).
  all: try (split; [intros H; (discriminate || now apply bind_true in H || now apply (bind_true _ (fun q => q)) in H)|tauto]).
  all: try (intros X' H; now apply bind_true in H).
  all: try (intros X' H; now apply (bind_true _ (fun q => q)) in H).
Qed.

Lemma rotvec_to_quat_guard : forall p q,
  (computeQuaternionFromRotationVec p q = Ret (false, q) <-> ~ (length p = 3%nat /\ length q = 4%nat)) /\
  (forall q', computeQuaternionFromRotationVec p q = Ret (false, q') -> q' = q).
Proof.
  intros p q. unfold computeQuaternionFromRotationVec.
  destruct (Nat.eq_dec (length p) 3) as [Hp|Hp].
  2:{ rewrite match3 by auto. split; [tauto|congruence]. }
  destruct (list3 p Hp) as (a & b & c & ->).
  destruct (Nat.eqb_spec (length q) 4); split; try congruence; try (split; [tauto|reflexivity]).
  all: try (split; [intros H; (discriminate || now apply bind_true in H || now apply (bind_true _ (fun q => q)) in H)|tauto]).
  all: try (intros X' H; now apply bind_true in H).
  all: try (intros X' H; now apply (bind_true _ (fun q => q)) in H).
Qed.

Lemma quat_to_rotvec_guard : forall q p,
  (computeRotationVecFromQuaternion q p = Ret (false, p) <-> ~ (length p = 3%nat /\ length q = 4%nat)) /\
  (forall p', computeRotationVecFromQuaternion q p = Ret (false, p') -> p' = p).
Proof.
  intros q p. unfold computeRotationVecFromQuaternion.
  destruct (Nat.eqb_spec (length p) 3); [|split; [tauto|congruence]].
  destruct (Nat.eq_dec (length q) 4) as [Hq|Hq].
  2:{ rewrite match4 by auto. split; [tauto|congruence]. }
  destruct (list4 q Hq) as (a & b & c & d & ->).
  split.
  - split; [intros H; now apply (bind_true _ (fun q => q)) in H|tauto].
  - intros q' H; now apply (bind_true _ (fun q => q)) in H.
Qed.

Lemma quat_equivalent_guard : forall q M,

  (buildQuaternionEquivalent q M = Ret (false, M) <->
   ~ (length q = 4%nat /\ mx_rows M = 4%nat /\ mx_cols M = 4%nat)) /\
  (forall M', buildQuaternionEquivalent q M = Ret (false, M') -> M' = M).
Proof.
  intros q M. unfold buildQuaternionEquivalent.
  destruct (Nat.eq_dec (length q) 4) as [Hq|Hq].
  2:{ rewrite match4 by auto. split; [tauto|congruence]. }
  destruct (list4 q Hq) as (a & b & c & d & ->).
  destruct (Nat.eqb_spec (mx_rows M) 4); destruct (Nat.eqb_spec (mx_cols M) 4); cbn [andb];
    split; try congruence; try (split; [tauto|reflexivity]).
  all: split; [discriminate|tauto].
Qed.
