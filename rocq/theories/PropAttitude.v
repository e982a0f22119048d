(** Theorems C01-C11: attitude representations (src/util/Attitude.cpp). *)
From Coq Require Import Reals List Lra Lia.
From Verif Require Import Base BaseVec SpecRot ModelAttitude ProofVec ProofAttitude ProofAttitude2.
Import ListNotations.
Open Scope R_scope.

Definition Z33 : MatrixXd := MX 3 3 (fun _ _ => 0).
Definition Z44 : MatrixXd := MX 4 4 (fun _ _ => 0).

(** C01 *)
Theorem C01_dcm_from_quaternion_is_rotation : forall q0 q1 q2 q3 M,
  [q0;q1;q2;q3] <> [0;0;0;0] -> mx_rows M = 3%nat -> mx_cols M = 3%nat ->
  exists R, computeDcmFromQuaternion [q0;q1;q2;q3] M = Ret (true, MX_of_mat3 R) /\
    is_rotation R /\ (mmul R (mtr R) = m3id /\ mmul (mtr R) R = m3id /\ mdet R = 1) /\
    (forall v, mvmul R v = qframe (q0, V3 q1 q2 q3) v).
Proof. exact dcm_from_quaternion_rotation. Qed.
Print Assumptions C01_dcm_from_quaternion_is_rotation.
Example C01_case : exists R, computeDcmFromQuaternion [1;-2;3;4] Z33 = Ret (true, MX_of_mat3 R) /\ is_rotation R.
Proof.
  destruct (C01_dcm_from_quaternion_is_rotation 1 (-2) 3 4 Z33) as (R & H & H' & _); eauto.
  intros E; injection E; lra.
Qed.

Theorem C01_zero_quaternion_has_no_dcm : forall M,
  mx_rows M = 3%nat -> mx_cols M = 3%nat -> computeDcmFromQuaternion [0;0;0;0] M = NonFinite.
Proof. exact dcm_from_zero_quaternion. Qed.
Print Assumptions C01_zero_quaternion_has_no_dcm.

(** C02 *)
Theorem C02_dcm_equal_iff_proportional : forall p0 p1 p2 p3 q0 q1 q2 q3 M M',
  [p0;p1;p2;p3] <> [0;0;0;0] -> [q0;q1;q2;q3] <> [0;0;0;0] ->
  mx_rows M = 3%nat -> mx_cols M = 3%nat -> mx_rows M' = 3%nat -> mx_cols M' = 3%nat ->
  (computeDcmFromQuaternion [p0;p1;p2;p3] M = computeDcmFromQuaternion [q0;q1;q2;q3] M' <->
   exists k, [p0;p1;p2;p3] = map (Rmult k) [q0;q1;q2;q3]).
Proof. exact dcm_equal_iff_proportional. Qed.
Print Assumptions C02_dcm_equal_iff_proportional.
Example C02_case :
  computeDcmFromQuaternion [-2;-4;6;-8] Z33 = computeDcmFromQuaternion [1;2;-3;4] Z33 /\
  computeDcmFromQuaternion [1;0;0;0] Z33 <> computeDcmFromQuaternion [1;1;0;0] Z33.
Proof.
  split.
  - apply C02_dcm_equal_iff_proportional; auto; try (intros E; injection E; lra).
    exists (-2). cbn. repeat (apply cons_eq; [ring|]); reflexivity.
  - rewrite C02_dcm_equal_iff_proportional; auto; try (intros E; injection E; lra).
    intros (k & E); cbn in E; injection E; lra.
Qed.

(** C03 *)
Theorem C03_quaternion_product_is_dcm_product : forall p0 p1 p2 p3 q0 q1 q2 q3 M M4,
  [p0;p1;p2;p3] <> [0;0;0;0] -> [q0;q1;q2;q3] <> [0;0;0;0] ->
  mx_rows M = 3%nat -> mx_cols M = 3%nat -> mx_rows M4 = 4%nat -> mx_cols M4 = 4%nat ->
  exists Q Rp Rq,
    buildQuaternionEquivalent [p0;p1;p2;p3] M4 = Ret (true, Q) /\
    computeDcmFromQuaternion [p0;p1;p2;p3] M = Ret (true, MX_of_mat3 Rp) /\
    computeDcmFromQuaternion [q0;q1;q2;q3] M = Ret (true, MX_of_mat3 Rq) /\
    computeDcmFromQuaternion (mx_apply Q [q0;q1;q2;q3]) M = Ret (true, MX_of_mat3 (mmul Rq Rp)).
Proof. exact quaternion_product_dcm. Qed.
Print Assumptions C03_quaternion_product_is_dcm_product.
Example C03_case : exists Q Rp Rq,
    buildQuaternionEquivalent [1;2;0;-1] Z44 = Ret (true, Q) /\
    computeDcmFromQuaternion [1;2;0;-1] Z33 = Ret (true, MX_of_mat3 Rp) /\
    computeDcmFromQuaternion [3;1;1;0] Z33 = Ret (true, MX_of_mat3 Rq) /\
    computeDcmFromQuaternion (mx_apply Q [3;1;1;0]) Z33 = Ret (true, MX_of_mat3 (mmul Rq Rp)).
Proof. apply C03_quaternion_product_is_dcm_product; auto; intros E; injection E; lra. Qed.

(** C04.  The full statement is false ([C04_dcm_to_quaternion_refuted]); the
    exact domain is the complement of [tie]. *)
Theorem C04_dcm_to_quaternion : forall M M3 q,
  is_rotation (mat3_of_MX M) -> mx_rows M = 3%nat -> mx_cols M = 3%nat -> length q = 4%nat ->
  mx_rows M3 = 3%nat -> mx_cols M3 = 3%nat ->
  exists a b c d, a*a + b*b + c*c + d*d = 1 /\
    computeDcmFromQuaternion [a;b;c;d] M3 = Ret (true, MX_of_mat3 (mat3_of_MX M)) /\
    (~ tie a b c d -> computeQuaternionFromDcm M q = Ret (true, [a;b;c;d])) /\
    (tie a b c d -> computeQuaternionFromDcm M q = NonFinite).
Proof. exact quaternion_from_rotation. Qed.
Print Assumptions C04_dcm_to_quaternion.

Theorem C04_quaternion_round_trip : forall a b c d M M' q,
  a*a + b*b + c*c + d*d = 1 ->
  mx_rows M = 3%nat -> mx_cols M = 3%nat -> length q = 4%nat ->
  computeDcmFromQuaternion [a;b;c;d] M = Ret (true, M') ->
  (~ tie a b c d ->
     computeQuaternionFromDcm M' q = Ret (true, [a;b;c;d]) \/
     computeQuaternionFromDcm M' q = Ret (true, [-a;-b;-c;-d])) /\
  (tie a b c d -> computeQuaternionFromDcm M' q = NonFinite).
Proof. exact quaternion_from_dcm_of_quaternion. Qed.
Print Assumptions C04_quaternion_round_trip.

Theorem C04_dcm_to_quaternion_refuted :
  exists M, is_rotation (mat3_of_MX M) /\ mx_rows M = 3%nat /\ mx_cols M = 3%nat /\
    forall q, length q = 4%nat -> computeQuaternionFromDcm M q = NonFinite.
Proof. exact quaternion_from_dcm_refuted. Qed.
Print Assumptions C04_dcm_to_quaternion_refuted.
(** A rotation on which it works: the unit quaternion (0.6, 0, 0.8, 0). *)
Example C04_case : exists M', computeDcmFromQuaternion [3/5;0;4/5;0] Z33 = Ret (true, M') /\
  (computeQuaternionFromDcm M' [0;0;0;0] = Ret (true, [3/5;0;4/5;0]) \/
   computeQuaternionFromDcm M' [0;0;0;0] = Ret (true, [-(3/5);-0;-(4/5);-0])).
Proof.
  destruct (C01_dcm_from_quaternion_is_rotation (3/5) 0 (4/5) 0 Z33) as (R & H & _); auto.
  { intros E; injection E; lra. }
  exists (MX_of_mat3 R). split; [exact H|].
  refine (proj1 (C04_quaternion_round_trip _ _ _ _ Z33 _ [0;0;0;0] _ eq_refl eq_refl eq_refl H) _); [lra|].
  unfold tie. lra.
Qed.

(** C05 *)
Theorem C05_quaternion_from_rotation_vector : forall p0 p1 p2 q M,
  V3 p0 p1 p2 <> v3zero -> length q = 4%nat -> mx_rows M = 3%nat -> mx_cols M = 3%nat ->
  let phi := V3 p0 p1 p2 in
  exists a b c d R,
    computeQuaternionFromRotationVec [p0;p1;p2] q = Ret (true, [a;b;c;d]) /\
    a*a + b*b + c*c + d*d = 1 /\
    computeDcmFromQuaternion [a;b;c;d] M = Ret (true, MX_of_mat3 R) /\
    mvmul R phi = phi /\
    (forall v, mvmul R v = rotate (vscale (/ norm phi) phi) (- norm phi) v).
Proof. exact quaternion_from_rotation_vector. Qed.
Print Assumptions C05_quaternion_from_rotation_vector.
Example C05_case : V3 0 (1/2) 0 <> v3zero.
Proof. intros E; injection E; lra. Qed.

Theorem C05_zero_rotation_vector_refuted : forall q, length q = 4%nat ->
  computeQuaternionFromRotationVec [0;0;0] q = NonFinite.
Proof. exact quaternion_from_zero_rotation_vector. Qed.
Print Assumptions C05_zero_rotation_vector_refuted.

(** C06.  The round trip negates the vector. *)
Theorem C06_rotation_vector_round_trip_negates : forall p0 p1 p2 q r,
  length q = 4%nat -> length r = 3%nat ->
  2 * asin (1/1000000) < norm (V3 p0 p1 p2) <= PI ->
  exists q', computeQuaternionFromRotationVec [p0;p1;p2] q = Ret (true, q') /\
    computeRotationVecFromQuaternion q' r = Ret (true, [-p0;-p1;-p2]).
Proof. exact rotation_vector_round_trip. Qed.
Print Assumptions C06_rotation_vector_round_trip_negates.

Theorem C06_rotation_vector_round_trip_refuted :
  exists p0 p1 p2, 2 * asin (1/1000000) < norm (V3 p0 p1 p2) <= PI /\
  forall q r, length q = 4%nat -> length r = 3%nat ->
  exists q', computeQuaternionFromRotationVec [p0;p1;p2] q = Ret (true, q') /\
    computeRotationVecFromQuaternion q' r <> Ret (true, [p0;p1;p2]).
Proof. exact rotation_vector_round_trip_refuted. Qed.
Print Assumptions C06_rotation_vector_round_trip_refuted.

(** C07 *)
Theorem C07_rotation_vector_bounded : forall q0 q1 q2 q3 phi,
  q0*q0 + q1*q1 + q2*q2 + q3*q3 = 1 -> length phi = 3%nat ->
  exists r, computeRotationVecFromQuaternion [q0;q1;q2;q3] phi = Ret (true, [vx r; vy r; vz r]) /\
    norm r <= PI.
Proof. exact rotation_vector_bounded. Qed.
Print Assumptions C07_rotation_vector_bounded.

Theorem C07_rotation_vector_meaning : forall q0 q1 q2 q3 phi M,
  q0*q0 + q1*q1 + q2*q2 + q3*q3 = 1 -> length phi = 3%nat ->
  mx_rows M = 3%nat -> mx_cols M = 3%nat ->
  1/1000000 < sqrt (q1*q1 + q2*q2 + q3*q3) ->
  exists r R, computeRotationVecFromQuaternion [q0;q1;q2;q3] phi = Ret (true, [vx r; vy r; vz r]) /\
    0 < norm r <= PI /\
    computeDcmFromQuaternion [q0;q1;q2;q3] M = Ret (true, MX_of_mat3 R) /\
    forall v, mvmul R v = rotate (vscale (/ norm r) r) (norm r) v.
Proof. exact rotation_vector_meaning. Qed.
Print Assumptions C07_rotation_vector_meaning.

Theorem C07_rotation_vector_sign_invariant : forall q0 q1 q2 q3 phi, q0 <> 0 ->
  computeRotationVecFromQuaternion [-q0;-q1;-q2;-q3] phi =
  computeRotationVecFromQuaternion [q0;q1;q2;q3] phi.
Proof. exact rotation_vector_sign_invariant. Qed.
Print Assumptions C07_rotation_vector_sign_invariant.

Theorem C07_rotation_vector_small : forall q0 q1 q2 q3 phi, length phi = 3%nat ->
  sqrt (q1*q1 + q2*q2 + q3*q3) <= 1/1000000 ->
  computeRotationVecFromQuaternion [q0;q1;q2;q3] phi = Ret (true, [0;0;0]).
Proof. exact rotation_vector_small. Qed.
Print Assumptions C07_rotation_vector_small.

Theorem C07_rotation_vector_too_long : forall q0 q1 q2 q3 phi, length phi = 3%nat ->
  1 < q1*q1 + q2*q2 + q3*q3 ->
  computeRotationVecFromQuaternion [q0;q1;q2;q3] phi = NonFinite.
Proof. exact rotation_vector_too_long. Qed.
Print Assumptions C07_rotation_vector_too_long.
(** The unit quaternion (-0.6, 0, 0.8, 0) meets all hypotheses above. *)
Example C07_case : (-(3/5))*(-(3/5)) + 0*0 + (4/5)*(4/5) + 0*0 = 1 /\
  1/1000000 < sqrt (0*0 + (4/5)*(4/5) + 0*0).
Proof.
  split; [lra|]. replace (0*0 + (4/5)*(4/5) + 0*0) with ((4/5)*(4/5)) by ring.
  rewrite sqrt_square; lra.
Qed.

(** C08 *)
Theorem C08_quaternion_equivalent_is_hamilton : forall p0 p1 p2 p3 M,
  mx_rows M = 4%nat -> mx_cols M = 4%nat ->
  exists Q, buildQuaternionEquivalent [p0;p1;p2;p3] M = Ret (true, Q) /\
   (forall q0 q1 q2 q3, mx_apply Q [q0;q1;q2;q3] =
        qlist (qmul (p0, V3 p1 p2 p3) (q0, V3 q1 q2 q3))) /\
   (forall i j, (i < 4)%nat -> (j < 4)%nat ->
      fold_right Rplus 0 (map (fun k => mx_at Q k i * mx_at Q k j) (seq 0 4)) =
      if Nat.eqb i j then p0*p0 + p1*p1 + p2*p2 + p3*p3 else 0).
Proof. exact quaternion_equivalent_hamilton. Qed.
Print Assumptions C08_quaternion_equivalent_is_hamilton.

Theorem C08_quaternion_equivalent_multiplicative :
  forall p0 p1 p2 p3 q0 q1 q2 q3 v0 v1 v2 v3 M Qp Qq Qpq,
  buildQuaternionEquivalent [p0;p1;p2;p3] M = Ret (true, Qp) ->
  buildQuaternionEquivalent [q0;q1;q2;q3] M = Ret (true, Qq) ->
  buildQuaternionEquivalent (mx_apply Qp [q0;q1;q2;q3]) M = Ret (true, Qpq) ->
  mx_apply Qpq [v0;v1;v2;v3] = mx_apply Qp (mx_apply Qq [v0;v1;v2;v3]).
Proof. exact quaternion_equivalent_multiplicative. Qed.
Print Assumptions C08_quaternion_equivalent_multiplicative.
(** i * j = k. *)
Example C08_case : exists Q, buildQuaternionEquivalent [0;1;0;0] Z44 = Ret (true, Q) /\
  mx_apply Q [0;0;1;0] = [0;0;0;1].
Proof.
  destruct (C08_quaternion_equivalent_is_hamilton 0 1 0 0 Z44 eq_refl eq_refl) as (Q & H & H' & _).
  exists Q. split; [exact H|]. rewrite H'. unfold qlist, qmul; cbn [fst snd]; unvec.
  repeat (apply cons_eq; [ring|]); reflexivity.
Qed.

(** C09 *)
Theorem C09_euler_to_dcm_is_rotation : forall e,
  fst (euler2Dcm e) = true /\ is_rotation (snd (euler2Dcm e)).
Proof. exact (fun e => conj eq_refl (euler_matrix_rotation e)). Qed.
Print Assumptions C09_euler_to_dcm_is_rotation.

(** The matrix actually returned is NED-to-body: its transpose maps each body
    vector to its NED components. *)
Theorem C09_euler_to_dcm_is_ned_to_body : forall r p h b,
  mvmul (mtr (snd (euler2Dcm (V3 r p h)))) b = body_axis r p h b.
Proof. exact euler_matrix_transposed. Qed.
Print Assumptions C09_euler_to_dcm_is_ned_to_body.

Theorem C09_body_axes : forall r p h,
  body_axis r p h ex = V3 (cos p * cos h) (cos p * sin h) (- sin p) /\
  body_axis r p h ey = V3 (sin r * sin p * cos h - cos r * sin h)
                          (sin r * sin p * sin h + cos r * cos h) (sin r * cos p) /\
  body_axis r p h ez = V3 (cos r * sin p * cos h + sin r * sin h)
                          (cos r * sin p * sin h - sin r * cos h) (cos r * cos p).
Proof. exact (fun r p h => conj (body_x r p h) (conj (body_y r p h) (body_z r p h))). Qed.
Print Assumptions C09_body_axes.

Theorem C09_euler_body_to_ned_refuted :
  exists r p h, mvmul (snd (euler2Dcm (V3 r p h))) ex <> V3 (cos p * cos h) (cos p * sin h) (- sin p).
Proof. exact euler_direction_refuted. Qed.
Print Assumptions C09_euler_body_to_ned_refuted.

(** C10 *)
Theorem C10_euler_round_trip : forall r p h e0,
  -(PI/2) < r < PI/2 -> -(PI/2) < p < PI/2 -> 0 <= h < PI ->
  1/1000000000 <= Rabs (cos p * cos h) -> 1/1000000000 <= Rabs (cos r * cos p) ->
  dcm2Euler (snd (euler2Dcm (V3 r p h))) e0 = Ret (true, V3 r p h).
Proof. exact euler_round_trip. Qed.
Print Assumptions C10_euler_round_trip.
Example C10_case : -(PI/2) < 0 < PI/2 /\ -(PI/2) < 0 < PI/2 /\ 0 <= 0 < PI /\
  1/1000000000 <= Rabs (cos 0 * cos 0).
Proof. pose proof PI_RGT_0. rewrite cos_0, Rmult_1_l, Rabs_R1. lra. Qed.

Theorem C10_euler_round_trip_reversed : forall r p h e0,
  -(PI/2) < r < PI/2 -> -(PI/2) < p < PI/2 -> PI <= h < 2 * PI ->
  1/1000000000 <= Rabs (cos p * cos h) -> 1/1000000000 <= Rabs (cos r * cos p) ->
  dcm2Euler (snd (euler2Dcm (V3 r p h))) e0 = Ret (true, V3 r p (h - PI)).
Proof. exact euler_round_trip_reversed. Qed.
Print Assumptions C10_euler_round_trip_reversed.

Theorem C10_euler_round_trip_inverted : forall r p h e0,
  PI/2 < r < PI -> -(PI/2) < p < PI/2 -> 0 <= h < PI ->
  1/1000000000 <= Rabs (cos p * cos h) -> 1/1000000000 <= Rabs (cos r * cos p) ->
  dcm2Euler (snd (euler2Dcm (V3 r p h))) e0 = Ret (true, V3 (r - PI) p h).
Proof. exact euler_round_trip_inverted. Qed.
Print Assumptions C10_euler_round_trip_inverted.

Theorem C10_euler_round_trip_refuted : exists r p h,
  -(PI/2) < r < PI/2 /\ -(PI/2) < p < PI/2 /\ 0 <= h < 2*PI /\
  1/1000000000 <= Rabs (cos p * cos h) /\ 1/1000000000 <= Rabs (cos r * cos p) /\
  forall e0, dcm2Euler (snd (euler2Dcm (V3 r p h))) e0 <> Ret (true, V3 r p h).
Proof. exact euler_round_trip_refuted. Qed.
Print Assumptions C10_euler_round_trip_refuted.

(** C11 *)
Theorem C11_dcm_from_quaternion_guard : forall q M,
  (computeDcmFromQuaternion q M = Ret (false, M) <->
   ~ (length q = 4%nat /\ mx_rows M = 3%nat /\ mx_cols M = 3%nat)) /\
  (forall M', computeDcmFromQuaternion q M = Ret (false, M') -> M' = M).
Proof. exact dcm_guard. Qed.
Print Assumptions C11_dcm_from_quaternion_guard.
Theorem C11_quaternion_from_dcm_guard : forall M q,
  (computeQuaternionFromDcm M q = Ret (false, q) <->
   ~ (length q = 4%nat /\ mx_rows M = 3%nat /\ mx_cols M = 3%nat)) /\
  (forall q', computeQuaternionFromDcm M q = Ret (false, q') -> q' = q).
Proof. exact quat_guard. Qed.
Print Assumptions C11_quaternion_from_dcm_guard.
Theorem C11_quaternion_from_rotation_vector_guard : forall p q,
  (computeQuaternionFromRotationVec p q = Ret (false, q) <-> ~ (length p = 3%nat /\ length q = 4%nat)) /\
  (forall q', computeQuaternionFromRotationVec p q = Ret (false, q') -> q' = q).
Proof. exact rotvec_to_quat_guard. Qed.
Print Assumptions C11_quaternion_from_rotation_vector_guard.
Theorem C11_rotation_vector_from_quaternion_guard : forall q p,
  (computeRotationVecFromQuaternion q p = Ret (false, p) <-> ~ (length p = 3%nat /\ length q = 4%nat)) /\
  (forall p', computeRotationVecFromQuaternion q p = Ret (false, p') -> p' = p).
Proof. exact quat_to_rotvec_guard. Qed.
Print Assumptions C11_rotation_vector_from_quaternion_guard.
Theorem C11_quaternion_equivalent_guard : forall q M,
  (buildQuaternionEquivalent q M = Ret (false, M) <->
   ~ (length q = 4%nat /\ mx_rows M = 4%nat /\ mx_cols M = 4%nat)) /\
  (forall M', buildQuaternionEquivalent q M = Ret (false, M') -> M' = M).
Proof. exact quat_equivalent_guard. Qed.
Print Assumptions C11_quaternion_equivalent_guard.
Theorem C11_dcm_to_euler_guard : forall A e,
  (dcm2Euler A e = Ret (false, e) <->
   (Rabs (m11 A) < 1/1000000000 \/ Rabs (m33 A) < 1/1000000000 \/ m13 A < -1 \/ 1 < m13 A)) /\
  ((exists e', dcm2Euler A e = Ret (true, e')) \/ dcm2Euler A e = Ret (false, e)).
Proof. exact (fun A e => conj (dcm2Euler_reject_iff A e) (dcm2Euler_guard A e)). Qed.
Print Assumptions C11_dcm_to_euler_guard.
