(** Theorem C141: Euler angles in double arithmetic. *)
From Coq Require Import Reals ZArith List Lra Lia.
From Flocq Require Import Core.
From Verif Require Import Base BaseVec ModelAttitude ModelDate ModelStrapdownFloat ModelEulerFloat SpecFloatOps SpecRot SpecEulerFloat SpecStrapdown ProofPi
  ProofStrapdownFloat ProofStrapdownFloat2 ProofEulerFloat.
Open Scope R_scope.

(** C141: when every entry of the matrix is within [e] of the matrix of roll
    [r], pitch [p] and heading [h], the computed roll and pitch are off by at
    most about 3.5 e / cos p, and so is the heading up to multiples of pi. *)
Theorem C141_angle_errors : forall F atan_f asin_f, float_ok F -> atan_ok atan_f -> asin_ok asin_f ->
  forall r p h A e e0 e', entries_within e A (axes_of r p h) -> 0 <= e -> 400 * e <= cos p -> 9 / 10000000000 <= cos p ->
  - (PI / 2) <= r <= PI / 2 -> - (PI / 2) <= p <= PI / 2 -> 2 * e + 10 * u64 <= cos r * cos p ->
  dcm2Euler_f F atan_f asin_f A e0 = Ret (true, e') ->
  Rabs (vx e' - r) <= (3 / 2 * e + 7 * u64) / cos p /\ Rabs (vy e' - p) <= (7 / 2 * e + 2 * u64) / cos p /\
  (exists k, Rabs (vz e' - h - IZR k * PI) <= (3 / 2 * e + 16 * u64) / cos p) /\ 0 <= vz e' <= PI + 9 * u64.
Proof. exact euler_errors. Qed.
Print Assumptions C141_angle_errors.
(** The multiple is zero for headings between 0 and pi, away from both ends by
    more than the errors. *)
Theorem C141_heading_error : forall F atan_f asin_f, float_ok F -> atan_ok atan_f -> asin_ok asin_f ->
  forall r p h A e e0 e', entries_within e A (axes_of r p h) -> 0 <= e -> 400 * e <= cos p -> 9 / 10000000000 <= cos p ->
  - (PI / 2) <= p <= PI / 2 -> 0 <= h <= PI -> 2 * e + 26 * u64 <= cos p * sin h ->
  dcm2Euler_f F atan_f asin_f A e0 = Ret (true, e') -> Rabs (vz e' - h) <= (3 / 2 * e + 16 * u64) / cos p.
Proof. exact heading_errors. Qed.
Print Assumptions C141_heading_error.
(** Angles to matrix and back, both in doubles. *)
Theorem C141_there_and_back : forall F atan_f asin_f, float_ok F -> atan_ok atan_f -> asin_ok asin_f ->
  forall r p h e0, - (PI / 2) <= r <= PI / 2 -> - (PI / 2) <= p <= PI / 2 -> 0 <= h <= PI ->
  1 / 1000000 <= cos p -> 102 / 100000000000 <= cos p * Rabs (cos h) -> 102 / 100000000000 <= cos r * cos p ->
  exists e', dcm2Euler_f F atan_f asin_f (snd (euler2Dcm_f F (V3 r p h))) e0 = Ret (true, e') /\
    Rabs (vx e' - r) <= 4 / 100000000000000 / cos p /\ Rabs (vy e' - p) <= 9 / 100000000000000 / cos p /\
    (exists k, Rabs (vz e' - h - IZR k * PI) <= 4 / 100000000000000 / cos p) /\
    (5 / 100000000000000 <= cos p * sin h -> Rabs (vz e' - h) <= 4 / 100000000000000 / cos p).
Proof. exact euler_there_and_back. Qed.
Print Assumptions C141_there_and_back.
(** After a run of attitude updates that ends at roll [r], pitch [p] and heading
    [h], all of it in doubles. *)
Theorem C141_after_a_run : forall F atan_f asin_f, float_ok F -> atan_ok atan_f -> asin_ok asin_f ->
  forall rph l r p h A' e0 e', (forall d, In d l -> bpow radix2 (-480) <= norm d <= 4) ->
  let e := 2100 * u64 * (INR (length l) + 1) in
  400 * e <= cos p -> 9 / 10000000000 <= cos p -> - (PI / 2) <= r <= PI / 2 -> - (PI / 2) <= p <= PI / 2 -> 2 * e + 10 * u64 <= cos r * cos p ->
  (forall v, mvmul (axes_of r p h) v = mvmul (snd (euler2Dcm rph)) (fold_right rotvec v l)) ->
  attitude_f F (snd (euler2Dcm_f F rph)) l = Ret A' -> dcm2Euler_f F atan_f asin_f A' e0 = Ret (true, e') ->
  Rabs (vx e' - r) <= (3 / 2 * e + 7 * u64) / cos p /\ Rabs (vy e' - p) <= (7 / 2 * e + 2 * u64) / cos p /\
  (exists k, Rabs (vz e' - h - IZR k * PI) <= (3 / 2 * e + 16 * u64) / cos p) /\
  (0 <= h <= PI -> 2 * e + 26 * u64 <= cos p * sin h -> Rabs (vz e' - h) <= (3 / 2 * e + 16 * u64) / cos p).
Proof. exact euler_run. Qed.
Print Assumptions C141_after_a_run.
(** Near heading zero the multiple of pi cannot be dropped: a change of 2^-1000
    in one entry of the identity turns heading 0 into pi. *)
Theorem C141_continuous_heading_refuted : let A := M3 1 (- bpow radix2 (-1000)) 0 0 1 0 0 0 1 in
  forall e0, exists a b, dcm2Euler_f binary64_ops atan_64 asin_64 m3id e0 = Ret (true, a) /\
    dcm2Euler_f binary64_ops atan_64 asin_64 A e0 = Ret (true, b) /\ entries_within (bpow radix2 (-1000)) A m3id /\ vz a = 0 /\ 3 < vz b.
Proof. exact heading_jumps. Qed.
Print Assumptions C141_continuous_heading_refuted.
(** The hypotheses hold for correctly rounded functions, the matrix is that of
    euler2Dcm, and without rounding the function is that of C10. *)
Theorem C141_binary64_meets_the_model : atan_ok atan_64 /\ asin_ok asin_64.
Proof. exact (conj atan_64_ok asin_64_ok). Qed.
Print Assumptions C141_binary64_meets_the_model.
Theorem C141_exact_arithmetic : (forall A e0, dcm2Euler_f exact_ops atan asin A e0 = dcm2Euler A e0) /\
  (forall r p h, snd (euler2Dcm (V3 r p h)) = axes_of r p h).
Proof. exact (conj euler_exact axes_euler). Qed.
Print Assumptions C141_exact_arithmetic.

(** Roll and pitch thirty degrees, heading sixty. *)
Example C141_case : forall e0, exists e', dcm2Euler_f binary64_ops atan_64 asin_64 (snd (euler2Dcm_f binary64_ops (V3 (PI / 6) (PI / 6) (PI / 3)))) e0 = Ret (true, e') /\
  Rabs (vx e' - PI / 6) <= 5 / 100000000000000 /\ Rabs (vz e' - PI / 3) <= 5 / 100000000000000.
Proof.
  intros e0. pose proof PI_bounds as P. pose proof cos_PI6 as C6. pose proof cos_PI3 as C3. pose proof sin_PI3 as S3.
  assert (Q : 17 / 10 <= sqrt 3) by (rewrite <- (sqrt_square (17 / 10)) by lra; apply sqrt_le_1_alt; lra).
  destruct (C141_there_and_back _ _ _ binary64_ok atan_64_ok asin_64_ok (PI / 6) (PI / 6) (PI / 3) e0) as (e' & K & X & _ & _ & Z);
    try lra; try (rewrite ?C6, ?C3, ?Rabs_right; nra).
  exists e'. split; [exact K|]. assert (D : 4 / 100000000000000 / cos (PI / 6) <= 5 / 100000000000000).
  { rewrite C6. apply (Rmult_le_reg_r (sqrt 3 / 2)); [lra|]. replace (4 / 100000000000000 / (sqrt 3 / 2) * (sqrt 3 / 2)) with (4 / 100000000000000) by (field; lra). lra. }
  split; [lra|]. assert (Rabs (vz e' - PI / 3) <= 4 / 100000000000000 / cos (PI / 6)); [|lra]. apply Z. rewrite C6, S3. nra.
Qed.
(** The run hypotheses of [C141_after_a_run] and the acceptance are met by level
    flight that turns to a heading of thirty degrees. *)
Example C141_run_case : let d := V3 0 0 (- (PI / 6)) in
  norm d <= 4 /\ forall v, mvmul (axes_of 0 0 (PI / 6)) v = mvmul (snd (euler2Dcm (V3 0 0 0))) (fold_right rotvec v (d :: nil)).
Proof.
  intros d. pose proof PI_bounds as P.
  assert (N : norm d = PI / 6). { unfold d, norm, dot. cbn [vx vy vz]. replace (0 * 0 + 0 * 0 + - (PI / 6) * - (PI / 6)) with (PI / 6 * (PI / 6)) by ring. apply sqrt_square. lra. }
  split; [rewrite N; lra|]. intros v. rewrite axes_euler. cbn [fold_right]. unfold rotvec. rewrite N. unfold d, vscale. cbn [vx vy vz].
  replace (/ (PI / 6) * 0) with 0 by ring. replace (/ (PI / 6) * - (PI / 6)) with (-1) by (field; lra).
  unfold rotate, axes_of, mvmul, row1, row2, row3, dot, cross, vadd, vscale. cbn [m11 m12 m13 m21 m22 m23 m31 m32 m33 vx vy vz].
  rewrite sin_0, cos_0. destruct v as [a b c]. cbn [vx vy vz]. f_equal; ring.
Qed.
