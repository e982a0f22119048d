(** Theorems C131 and C132: accuracy of the attitude computed from integrated
    rates. *)
From Coq Require Import Reals ZArith List Lra Lia.
From Coquelicot Require Import Coquelicot.
From Verif Require Import Base BaseVec SpecRot SpecEarth SpecStrapdown SpecTurn ModelStrapdown
  ProofVec ProofStrapdown ProofConverge ProofTurn.
Import ListNotations.
Open Scope R_scope.

(** C131: the attitude error grows by at most M L eta^2 / 3 per second, whatever
    the time stamps; an initial error is kept. *)
Theorem C131_attitude_second_order : forall T M L C w th eta, turning T C w th -> smooth_rate T M L w -> 0 <= L -> 0 <= M ->
  forall l t n n' A e, 0 <= t -> gyro_samples eta th t l -> t + span l <= T -> RB2N n = Some A -> run (Some n) (map fst l) = Ret (Some n') ->
  0 <= e -> is_rotation A -> (forall v, norm (vsub (mvmul A v) (mvmul (C t) v)) <= e * norm v) ->
  exists A', RB2N n' = Some A' /\ is_rotation A' /\ forall v, norm (vsub (mvmul A' v) (mvmul (C (t + span l)) v)) <= (e + M * L * (eta * eta) * span l / 3) * norm v.
Proof. exact att_history. Qed.
Print Assumptions C131_attitude_second_order.

(** A unit in a wide cone motion at 1 rad/s sampled after 0.1 s. *)
Lemma C131_rate T e : smooth_rate T 4 2 (cone_rate e 1).
Proof.
  pose proof (SIN_bound e) as Se. pose proof (COS_bound e) as Ce. split.
  - intros t _. eapply Rle_trans; [apply norm_n1|]. unfold SpecConverge.n1, cone_rate. cbn [vx vy vz]. pose proof (SIN_bound (1 * t)). pose proof (COS_bound (1 * t)).
    assert (P : forall a b, -1 <= a <= 1 -> -1 <= b <= 1 -> Rabs (a * b) <= 1) by (intros a b Ha Hb; rewrite Rabs_mult; assert (Rabs a <= 1) by (apply Rabs_le; lra); assert (Rabs b <= 1) by (apply Rabs_le; lra); pose proof (Rabs_pos a); pose proof (Rabs_pos b); nra).
    replace (Ropp 1 * sin e * sin (1 * t)) with ((- sin e) * sin (1 * t)) by ring. replace (1 * sin e * cos (1 * t)) with (sin e * cos (1 * t)) by ring.
    pose proof (P (- sin e) (sin (1 * t)) ltac:(lra) ltac:(lra)). pose proof (P (sin e) (cos (1 * t)) ltac:(lra) ltac:(lra)).
    assert (Rabs (Ropp 1 * (1 - cos e)) <= 2) by (apply Rabs_le; lra). lra.
  - intros s t Hs Ht. eapply Rle_trans; [apply norm_n1|]. unfold SpecConverge.n1, cone_rate, vsub. cbn [vx vy vz]. rewrite !Rmult_1_l.
    destruct (mvt sin cos s (t - s) ltac:(lra)) as (x & _ & E1); [intros; apply is_derive_Reals, derivable_pt_lim_sin|].
    destruct (mvt cos (fun x => - sin x) s (t - s) ltac:(lra)) as (y & _ & E2); [intros; apply is_derive_Reals, derivable_pt_lim_cos|].
    replace (s + (t - s)) with t in * by ring.
    replace (Ropp 1 * sin e * sin t - Ropp 1 * sin e * sin s) with (- (sin e * (sin t - sin s))) by ring. replace (sin e * cos t - sin e * cos s) with (sin e * (cos t - cos s)) by ring.
    rewrite E1, E2. replace (Ropp 1 * (1 - cos e) - Ropp 1 * (1 - cos e)) with 0 by ring. rewrite Rabs_R0, Rabs_Ropp, !Rabs_mult, (Rabs_right (t - s)) by lra.
    pose proof (COS_bound x). pose proof (SIN_bound y). assert (Rabs (cos x) <= 1) by (apply Rabs_le; lra). assert (Rabs (- sin y) <= 1) by (apply Rabs_le; lra). assert (Rabs (sin e) <= 1) by (apply Rabs_le; lra).
    pose proof (Rabs_pos (sin e)). assert (Rabs (cos x) * (t - s) <= t - s) by nra. assert (Rabs (- sin y) * (t - s) <= t - s) by nra.
    pose proof (Rabs_pos (cos x)). pose proof (Rabs_pos (- sin y)). nra.
Qed.
Example C131_case : exists n' A', run (Some (NavS (Some (coning (PI / 2) 1 0)) None 0 0)) [(v3zero, vsub (cone_angle (PI / 2) 1 (1 / 10)) (cone_angle (PI / 2) 1 0), 100000%Z)] = Ret (Some n') /\
  RB2N n' = Some A' /\ forall v, norm (vsub (mvmul A' v) (mvmul (coning (PI / 2) 1 (1 / 10)) v)) <= 1 / 300 * norm v.
Proof.
  set (m := (v3zero, vsub (cone_angle (PI / 2) 1 (1 / 10)) (cone_angle (PI / 2) 1 0), 100000%Z) : sample).
  destruct (run_defined (NavS (Some (coning (PI / 2) 1 0)) None 0 0) [m]) as (n' & E); [cbn; lia|].
  destruct (C131_attitude_second_order 1 4 2 _ _ _ (1 / 10) (cone_turning (PI / 2) 1 1) (C131_rate 1 (PI / 2)) ltac:(lra) ltac:(lra) [(m, 1 / 10)] 0 (NavS (Some (coning (PI / 2) 1 0)) None 0 0) n' (coning (PI / 2) 1 0) 0) as (A' & HA & _ & B).
  - lra.
  - cbn [gyro_samples]. split; [lra|]. split; [unfold m, s_dTh; cbn [fst snd]; rewrite Rplus_0_l; reflexivity|]. split; [|exact I].
    unfold m, s_dTh, cone_angle, vsub, v3zero. cbn [fst snd vx vy vz]. rewrite cos_PI2. intros K. injection K as _ _ K. lra.
  - unfold span. cbn. lra.
  - reflexivity.
  - exact E.
  - lra.
  - apply coning_rotation.
  - intros v. rewrite Rmult_0_l. replace (vsub _ _) with v3zero; [rewrite norm_zero; lra|]. unfold vsub, v3zero. symmetry. apply v3_eq; ring.
  - exists n', A'. split; [exact E|]. split; [exact HA|]. intros v. specialize (B v). unfold span in B. cbn [map snd fold_right] in B. rewrite Rplus_0_r, Rplus_0_l in B. pose proof (norm_nonneg v). nra.
Qed.

(** C132: coning.  The attitude turns with the stated rate, its integral is the
    stated angle, and after every cycle it is back where it was. *)
Theorem C132_motion : forall e W T, turning T (coning e W) (cone_rate e W) (cone_angle e W).
Proof. exact cone_turning. Qed.
Print Assumptions C132_motion.
Theorem C132_attitude_returns : forall e W k, W <> 0 -> coning e W (INR k * (2 * PI / W)) = coning e W 0.
Proof. exact cone_period. Qed.
Print Assumptions C132_attitude_returns.
(** The exact integral of the rate over each cycle. *)
Theorem C132_increments : forall e W k, W <> 0 ->
  vsub (cone_angle e W (INR (S k) * (2 * PI / W))) (cone_angle e W (INR k * (2 * PI / W))) = V3 0 0 (- (2 * PI * (1 - cos e))).
Proof. exact cone_increment. Qed.
Print Assumptions C132_increments.
(** Sampled once per cycle, the computed attitude turns about the body z axis by
    the solid angle of the cone with every sample. *)
Theorem C132_computed_attitude_drifts : forall e W l n n', cos e <> 1 -> RB2N n = Some (coning e W 0) ->
  (forall m, In m l -> s_dTh m = V3 0 0 (- (2 * PI * (1 - cos e)))) -> run (Some n) l = Ret (Some n') ->
  exists A, RB2N n' = Some A /\ forall v, mvmul A v = mvmul (coning e W 0) (rotate ez (- (INR (length l) * (2 * PI * (1 - cos e)))) v).
Proof. exact cone_drift. Qed.
Print Assumptions C132_computed_attitude_drifts.
(** So integrated rates do not give the true attitude: in a cone of 60 degrees,
    after one cycle of one second the computed attitude is off by half a turn. *)
Theorem C132_true_attitude_refuted : ~ (forall T C w th l n n', turning T C w th -> gyro_samples T th 0 l -> span l = T ->
  RB2N n = Some (C 0) -> run (Some n) (map fst l) = Ret (Some n') -> RB2N n' = Some (C T)).
Proof.
  intros H. set (W := 2 * PI). set (e := PI / 3). set (m := (v3zero, V3 0 0 (- (2 * PI * (1 - cos e))), 1000000%Z) : sample). pose proof PI_RGT_0 as P.
  assert (Ce : cos e = 1 / 2) by (unfold e; rewrite cos_PI3; reflexivity). assert (HW : W <> 0) by (unfold W; lra).
  assert (T1 : 1 = INR 1 * (2 * PI / W)) by (unfold W; cbn; field; lra). assert (T0 : 0 = INR 0 * (2 * PI / W)) by (cbn; ring).
  destruct (run_defined (NavS (Some (coning e W 0)) None 0 0) [m]) as (n' & E); [cbn; lia|].
  assert (HG : gyro_samples 1 (cone_angle e W) 0 [(m, 1)]).
  { cbn [gyro_samples]. rewrite Rplus_0_l. split; [lra|]. split; [rewrite T1, T0 at 1; unfold m, s_dTh; cbn [fst snd]; rewrite <- (cone_increment e W 0 HW); rewrite <- T0; reflexivity|].
    split; [|exact I]. unfold m, s_dTh, v3zero. cbn [fst snd]. rewrite Ce. intros K. injection K as K. lra. }
  specialize (H 1 _ _ _ [(m, 1)] (NavS (Some (coning e W 0)) None 0 0) n' (cone_turning e W 1) HG ltac:(unfold span; cbn; ring) eq_refl E).
  destruct (cone_drift e W [m] (NavS (Some (coning e W 0)) None 0 0) n' ltac:(rewrite Ce; lra) eq_refl ltac:(intros m' [<-|[]]; reflexivity) E) as (A & HA & V). rewrite HA in H. injection H as ->.
  assert (C1 : coning e W 1 = coning e W 0) by (rewrite <- (cone_period e W 1 HW), <- T1; reflexivity).
  specialize (V ex). rewrite C1 in V. cbn [INR length] in V. rewrite Ce in V. replace (- (1 * (2 * PI * (1 - 1 / 2)))) with (- PI) in V by field.
  pose proof (coning_rotation e W 0) as [D _]. pose proof (D ex ex) as D1. rewrite V in D1 at 2. rewrite D in D1. unfold rotate, dot, vadd, vscale, cross in D1. cbn [vx vy vz ex ez] in D1. rewrite cos_neg, cos_PI in D1. lra.
Qed.
Print Assumptions C132_true_attitude_refuted.
Example C132_case : cos (PI / 3) <> 1 /\ V3 0 0 (- (2 * PI * (1 - cos (PI / 3)))) = V3 0 0 (- PI).
Proof. rewrite cos_PI3. split; [lra|]. f_equal. field. Qed.
