(** Theorems C64-C68 and C78-C80: the strapdown navigator. *)
From Coq Require Import Reals ZArith List Lra Lia.
From Verif Require Import Base BaseVec SpecRot SpecEarth ModelAttitude ModelGravity ModelNavUtils ModelStrapdown
  SpecStrapdown ProofVec ProofAttitude2 ProofStrapdown.
Import ListNotations.
Open Scope R_scope.

(** C64: from an attitude [A], any number of non-zero increments. *)
Theorem C64_attitude_composes_increments : forall l n n' A, run (Some n) l = Ret (Some n') -> RB2N n = Some A ->
  (forall m, In m l -> s_dTh m <> v3zero) ->
  exists B, RB2N n' = Some (mmul A B) /\ is_rotation B /\
    forall v, mvmul B v = fold_right (fun m w => rotvec (s_dTh m) w) v l.
Proof. exact run_attitude. Qed.
Print Assumptions C64_attitude_composes_increments.
Theorem C64_attitude_from_initialize : forall lla vNed rph t s l n',
  (forall m, In m l -> s_dTh m <> v3zero) ->
  run (snd (initialize lla vNed rph t s)) l = Ret (Some n') ->
  fst (initialize lla vNed rph t s) = true /\
  exists A, RB2N n' = Some A /\ is_rotation A /\
    forall v, mvmul A v = mvmul (snd (euler2Dcm rph)) (fold_right (fun m w => rotvec (s_dTh m) w) v l).
Proof. exact init_attitude. Qed.
Print Assumptions C64_attitude_from_initialize.
(** Every history with times in [0, 2^63) runs to its end. *)
Theorem C64_histories_defined : forall lla vNed rph t s l, (0 <= t < 2 ^ 63)%Z ->
  (forall m, In m l -> (0 <= s_t m < 2 ^ 63)%Z) ->
  exists n, run (snd (initialize lla vNed rph t s)) l = Ret (Some n).
Proof. exact init_defined. Qed.
Print Assumptions C64_histories_defined.

Definition h2 : list sample :=
  [(V3 0 0 (-1), V3 (1/10) 0 0, 1000000%Z); (V3 1 2 (-1), V3 0 (1/5) (1/10), 2000000%Z)].
Lemma h2_nonzero : forall m, In m h2 -> s_dTh m <> v3zero.
Proof. intros m [<-|[<-|[]]] E; cbn in E; injection E; lra. Qed.
Example C64_case : exists n A, run (snd (initialize (V3 (1/2) 1 100) v3zero (V3 0 (1/2) 1) 0 None)) h2 = Ret (Some n) /\
  RB2N n = Some A /\ is_rotation A.
Proof.
  destruct (C64_histories_defined (V3 (1/2) 1 100) v3zero (V3 0 (1/2) 1) 0 None h2) as (n & E); [lia|intros m [<-|[<-|[]]]; cbn; lia|].
  destruct (C64_attitude_from_initialize _ _ _ _ _ _ _ h2_nonzero E) as (_ & A & HA & RA & _). eauto.
Qed.

(** C65: one zero increment anywhere in the history loses the attitude, and
    position and velocity with it, for good. *)
Theorem C65_stationary_keeps_attitude_refuted : forall l n n' m, run (Some n) l = Ret (Some n') ->
  In m l -> s_dTh m = v3zero -> RB2N n' = None /\ pv n' = None.
Proof. exact run_zero. Qed.
Print Assumptions C65_stationary_keeps_attitude_refuted.
Theorem C65_initialize_restores : forall lla vNed rph t s, exists n,
  initialize lla vNed rph t s = (true, Some n) /\ RB2N n = Some (snd (euler2Dcm rph)) /\ pv n = Some (lla, vNed) /\ tov n = t.
Proof. exact init_sets. Qed.
Print Assumptions C65_initialize_restores.
Example C65_case : exists n, run (snd (initialize (V3 (1/2) 1 100) v3zero (V3 0 (1/2) 1) 0 None))
  (h2 ++ [(V3 0 0 0, v3zero, 3000000%Z)]) = Ret (Some n) /\ RB2N n = None /\ pv n = None.
Proof.
  destruct (C64_histories_defined (V3 (1/2) 1 100) v3zero (V3 0 (1/2) 1) 0 None (h2 ++ [(V3 0 0 0, v3zero, 3000000%Z)])) as (n & E);
    [lia|intros m [<-|[<-|[<-|[]]]]; cbn; lia|].
  exists n. split; [exact E|]. eapply C65_stationary_keeps_attitude_refuted; [exact E|apply in_or_app; right; now left|reflexivity].
Qed.

(** C66 *)
Theorem C66_time_bookkeeping : forall n l m n', run (Some n) (l ++ [m]) = Ret (Some n') ->
  tov n' = s_t m /\ dt n' = IZR (s_t m - last_time (tov n) l) / 1000000.
Proof. exact run_dt. Qed.
Print Assumptions C66_time_bookkeeping.
Theorem C66_same_time_loses_position_and_velocity : forall n l m m' n',
  run (Some n) (l ++ [m; m']) = Ret (Some n') -> s_t m' = s_t m -> pv n' = None.
Proof. exact same_time_pv. Qed.
Print Assumptions C66_same_time_loses_position_and_velocity.
(** Lost values never come back without initialize. *)
Theorem C66_lost_stays_lost : forall l n n', run (Some n) l = Ret (Some n') ->
  (pv n = None -> pv n' = None) /\ (RB2N n = None -> RB2N n' = None).
Proof. intros l n n' H. split; intros K; [exact (run_pv_lost l n n' H K)|exact (run_attitude_lost l n n' H K)]. Qed.
Print Assumptions C66_lost_stays_lost.
Theorem C66_defined_iff_differences_fit : forall n l,
  (times_fit (tov n) l -> exists n', run (Some n) l = Ret (Some n')) /\
  (~ times_fit (tov n) l -> run (Some n) l = Undef).
Proof. intros n l. split; [apply run_defined|apply run_undefined]. Qed.
Print Assumptions C66_defined_iff_differences_fit.
Example C66_case :
  (exists n, run (snd (initialize (V3 (1/2) 1 100) v3zero (V3 0 (1/2) 1) 0 None)) h2 = Ret (Some n) /\ dt n = 1) /\
  run (snd (initialize v3zero v3zero v3zero (-1) None)) [(v3zero, ex, 2 ^ 63 - 1)%Z] = Undef.
Proof.
  split.
  - destruct (C64_histories_defined (V3 (1/2) 1 100) v3zero (V3 0 (1/2) 1) 0 None h2) as (n & E); [lia|intros m [<-|[<-|[]]]; cbn; lia|].
    exists n. split; [exact E|]. destruct (C66_time_bookkeeping _ (firstn 1 h2) _ _ E) as [_ ->]. cbn. lra.
  - apply C66_defined_iff_differences_fit. cbn [times_fit s_t snd tov]. lia.
Qed.

(** C67: initialize stores the NED-to-body matrix: its transpose, not it, maps
    body axes to north-east-down. *)
Theorem C67_initialize_stores_the_transpose : forall lla vNed r p h t s, exists n A,
  initialize lla vNed (V3 r p h) t s = (true, Some n) /\ RB2N n = Some A /\
  forall b, mvmul (mtr A) b = body_axis r p h b.
Proof. exact init_transpose. Qed.
Print Assumptions C67_initialize_stores_the_transpose.
Theorem C67_body_to_ned_refuted : exists r p h, forall lla vNed t s n A,
  initialize lla vNed (V3 r p h) t s = (true, Some n) -> RB2N n = Some A ->
  mvmul A ex = V3 0 (-1) 0 /\ body_axis r p h ex = V3 0 1 0.
Proof. exact init_body_refuted. Qed.
Print Assumptions C67_body_to_ned_refuted.

(** C68 *)
Theorem C68_one_axis_rotations_add : forall n l (st0 : Nav) n1 n2 m A, dot n n = 1 -> RB2N st0 = Some A ->
  (forall m, In m l -> exists s, s <> 0 /\ s_dTh m = vscale s n) ->
  fold_right Rplus 0 (map (fun m => dot n (s_dTh m)) l) <> 0 ->
  s_dTh m = vscale (fold_right Rplus 0 (map (fun m => dot n (s_dTh m)) l)) n ->
  run (Some st0) l = Ret (Some n1) -> run (Some st0) [m] = Ret (Some n2) -> RB2N n1 = RB2N n2.
Proof. exact one_axis. Qed.
Print Assumptions C68_one_axis_rotations_add.
Definition l68 : list sample := [(v3zero, V3 0 0 (1/4), 1%Z); (v3zero, V3 0 0 (-1), 2%Z)].
Example C68_case : dot ez ez = 1 /\ (forall m, In m l68 -> exists s, s <> 0 /\ s_dTh m = vscale s ez) /\
  fold_right Rplus 0 (map (fun m => dot ez (s_dTh m)) l68) = - (3/4).
Proof.
  split; [unfold dot; cbn; ring|]. split.
  - intros m [<-|[<-|[]]]; [exists (1/4)|exists (-1)]; (split; [lra|]); unfold vscale; cbn; f_equal; ring.
  - unfold dot; cbn. lra.
Qed.

(** C78: at rest on an Earth turning with rate [w] (NED components) the gyros
    sense the constant increment h*A^T*w.  The attitude should stay [A]; it turns
    with the Earth instead. *)
Theorem C78_rest_attitude_constant_refuted : forall A w (h : R) l (s : Nav) s',
  is_rotation A -> w <> v3zero -> 0 < h -> RB2N s = Some A ->
  (forall m, In m l -> s_dTh m = vscale h (mvmul (mtr A) w)) -> run (Some s) l = Ret (Some s') ->
  exists A', RB2N s' = Some A' /\
    forall b, mvmul A' b = rotate (vscale (/ norm w) w) (INR (List.length l) * (h * norm w)) (mvmul A b).
Proof. exact rest_drift. Qed.
Print Assumptions C78_rest_attitude_constant_refuted.
(** One sample of half a turn about the vertical: north becomes south. *)
Example C78_case : exists n A', run (Some (NavS (Some m3id) None 0 0)) [(v3zero, vscale PI ez, 1%Z)] = Ret (Some n) /\
  RB2N n = Some A' /\ mvmul A' ex = V3 (-1) 0 0.
Proof.
  destruct (run_defined (NavS (Some m3id) None 0 0) [(v3zero, vscale PI ez, 1%Z)]) as (n & E); [cbn; lia|].
  assert (N1 : norm ez = 1) by (unfold norm, dot; cbn; replace (0 * 0 + 0 * 0 + 1 * 1) with 1 by ring; apply sqrt_1).
  assert (Z : ez <> v3zero) by (intros K; injection K; lra).
  assert (D : forall m, In m [(v3zero, vscale PI ez, 1%Z)] -> s_dTh m = vscale PI (mvmul (mtr m3id) ez)).
  { intros m [<-|[]]. rewrite mtr_id, mvmul_id. reflexivity. }
  destruct (C78_rest_attitude_constant_refuted m3id ez PI _ (NavS (Some m3id) None 0 0) n rotation_id Z PI_RGT_0 eq_refl D E)
    as (A' & HA & V).
  exists n, A'. split; [exact E|]. split; [exact HA|]. rewrite V, mvmul_id, N1. cbn [List.length INR].
  replace (1 * (PI * 1)) with PI by ring. unfold rotate, vadd, vscale, cross, dot; cbn. rewrite cos_PI, sin_PI. apply v3_eq; field.
Qed.

(** C79 *)
Theorem C79_longitude_equivariance : forall k l n n', run (Some n) l = Ret (Some n') ->
  run (Some (NavS (RB2N n) (match pv n with Some y => Some (shift k y) | None => None end) (tov n) (dt n))) l
  = Ret (Some (NavS (RB2N n') (match pv n' with Some y => Some (shift k y) | None => None end) (tov n') (dt n'))).
Proof. exact run_shift. Qed.
Print Assumptions C79_longitude_equivariance.
Example C79_case : shift (1/2) (V3 (1/2) 1 100, v3zero) = (V3 (1/2) (3/2) 100, v3zero).
Proof. unfold shift; cbn. do 2 f_equal. lra. Qed.

(** C80: initialize erases the past: after it no later call can tell what
    happened before, even undefined or lost values. *)
Theorem C80_initialize_forgets : forall lla vNed rph t s s' m l,
  run (snd (initialize lla vNed rph t s)) (m :: l) = run (snd (initialize lla vNed rph t s')) (m :: l).
Proof. exact init_forgets. Qed.
Print Assumptions C80_initialize_forgets.
