(** Claims about coarse alignment (src/inertial/initialization.cpp 15-44). *)
From Coq Require Import Reals Lra.
From Verif Require Import Base BaseVec SpecRot SpecCoarse ModelCoarse ProofVec ProofCoarse.
Open Scope R_scope.

(** A unit turned by 90 degrees about the vertical, on the equator. *)
Definition quarter : mat3 := M3 0 (-1) 0 1 0 0 0 0 1.
Example quarter_rotation : is_rotation quarter.
Proof. apply rotation_iff. unfold quarter, mmul, mtr, m3id, mdet. cbn. split; [f_equal; ring|ring]. Qed.
Example coarse_case : coarseAttitudeAlignment 0 2 10 (V3 0 0 (-10)) (V3 0 (-2) 0) = Ret (true, quarter).
Proof.
  rewrite coarse_closed by (try rewrite cos_0; lra). rewrite sin_0, cos_0. f_equal. f_equal.
  unfold quarter, cross; cbn. f_equal; field.
Qed.

(** C69 *)
Theorem C69_recovers : forall lat wE g Rm, g <> 0 -> wE <> 0 -> cos lat <> 0 -> is_rotation Rm ->
  coarseAttitudeAlignment lat wE g (mvmul (mtr Rm) (rest_force g)) (mvmul (mtr Rm) (earth_rate wE lat)) = Ret (true, Rm).
Proof. exact coarse_true. Qed.
Print Assumptions C69_recovers.
Theorem C69_no_result : forall lat wE g a w, g = 0 \/ wE = 0 \/ cos lat = 0 -> coarseAttitudeAlignment lat wE g a w = NonFinite.
Proof. exact coarse_singular. Qed.
Print Assumptions C69_no_result.
(** The result is a rotation exactly for consistent measurements. *)
Theorem C69_rotation_iff : forall lat wE g a w M, coarseAttitudeAlignment lat wE g a w = Ret (true, M) ->
  (is_rotation M <-> dot a a = g * g /\ dot w w = wE * wE /\ dot a w = g * (wE * sin lat)).
Proof. exact coarse_rotation. Qed.
Print Assumptions C69_rotation_iff.
(** An inconsistent measurement: an accelerometer reading of twice gravity. *)
Theorem C69_need_not_be_rotation : exists M,
  coarseAttitudeAlignment 0 1 1 (V3 0 0 (-2)) (V3 1 0 0) = Ret (true, M) /\ ~ is_rotation M.
Proof.
  eexists. split; [rewrite coarse_closed by (try rewrite cos_0; lra); reflexivity|].
  intros H. apply (coarse_rotation 0 1 1 (V3 0 0 (-2)) (V3 1 0 0)) in H; [|rewrite coarse_closed by (try rewrite cos_0; lra); reflexivity].
  destruct H as [H _]. unfold dot in H. cbn in H. lra.
Qed.
Print Assumptions C69_need_not_be_rotation.
Theorem C69_equivariant : forall lat wE g a w M Rm, is_rotation Rm ->
  coarseAttitudeAlignment lat wE g a w = Ret (true, M) ->
  coarseAttitudeAlignment lat wE g (mvmul (mtr Rm) a) (mvmul (mtr Rm) w) = Ret (true, mmul M Rm).
Proof. exact coarse_equivariant. Qed.
Print Assumptions C69_equivariant.

(** C90: with a gyro error e (in north-east-down components) the down row is
    exact and the heading is turned by e_east / (wE cos lat). *)
Theorem C90_gyro_error : forall lat wE g Rm e, g <> 0 -> wE <> 0 -> cos lat <> 0 -> is_rotation Rm ->
  let k := / (wE * cos lat) in
  coarseAttitudeAlignment lat wE g (mvmul (mtr Rm) (rest_force g)) (mvmul (mtr Rm) (vadd (earth_rate wE lat) e)) =
  Ret (true, mmul (M3 (1 + k * vx e) (k * vy e) (k * vz e) (- (k * vy e)) (1 + k * vx e) 0 0 0 1) Rm).
Proof. exact coarse_gyro_error. Qed.
Print Assumptions C90_gyro_error.
(** With an accelerometer error e the down row tilts by e / g, whatever the gyros
    read. *)
Theorem C90_accelerometer_error : forall lat wE g Rm e w M, is_rotation Rm ->
  coarseAttitudeAlignment lat wE g (mvmul (mtr Rm) (vadd (rest_force g) e)) w = Ret (true, M) ->
  row3 M = mvmul (mtr Rm) (V3 (- (vx e / g)) (- (vy e / g)) (1 - vz e / g)).
Proof. exact coarse_accel_error. Qed.
Print Assumptions C90_accelerometer_error.
