(** Theorem C129: the navigator converges to the motion it is meant to follow. *)
From Coq Require Import Reals ZArith List Lra Lia.
From Coquelicot Require Import Coquelicot.
From Verif Require Import Base BaseVec SpecRot SpecEarth SpecStrapdown SpecConverge ModelAttitude ModelGravity ModelNavUtils ModelStrapdown
  ProofVec ProofAttitude2 ProofGravity ProofNavUtils ProofStrapdown ProofStrapdown2 ProofLip ProofConverge.
Import ListNotations.
Open Scope R_scope.

(** C129: along any motion that stays off the poles, below 6200 km and within
    bounds on velocity, force and rate, the attitude, position and velocity
    computed from sampled increments are within a constant times (initial error
    + longest step + sensor error) of the true ones, for whatever number of
    calls. *)
Theorem C129_navigator_converges : forall A H V Fm W T, 0 <= A < PI / 2 -> 0 <= H < 6200000 -> 0 <= V -> 0 <= Fm -> 0 <= W -> 0 <= T ->
  exists K d, 0 < K /\ 0 < d /\ forall C y f w l C0 y0 eta eps,
    motion T C y f w -> (forall t, 0 <= t <= T -> Box A H V (y t) /\ n1 (f t) <= Fm /\ n1 (w t) <= W) ->
    0 <= eta -> 0 <= eps -> sampled T eta eps f w 0 l -> d9 C0 (C 0) + d6 y0 (y 0) + eta + eps <= d ->
    exists C1 y1, nav_run (C0, y0) l = Ret (C1, y1) /\
      d9 C1 (C (end_time 0 l)) + d6 y1 (y (end_time 0 l)) <= K * (d9 C0 (C 0) + d6 y0 (y 0) + eta + eps).
Proof. exact navigator_converges. Qed.
Print Assumptions C129_navigator_converges.

(** A vehicle on the equator turning about the vertical at 1 rad/s, held up
    against gravity, sampled [N] times in [T] seconds. *)
Definition turning (t : R) : mat3 := M3 (cos t) (- sin t) 0 (sin t) (cos t) 0 0 0 1.
Definition resting : vec3 * vec3 := (v3zero, v3zero).
Definition held : vec3 := vneg (grav resting).
Lemma turning_motion T : motion T turning (fun _ => resting) (fun _ => held) (fun _ => V3 0 0 1).
Proof.
  intros t _. split; [|split].
  - pose proof (sin2_cos2 t) as S. unfold Rsqr, turning in *. revert S. generalize (sin t) (cos t). intros s c S.
    assert (E : s * s = 1 - c * c) by lra. split; intros [u1 u2 u3] [v1 v2 v3].
    + unfold dot, mvmul. cbn [vx vy vz m11 m12 m13 m21 m22 m23 m31 m32 m33]. ring [E].
    + unfold cross, mvmul. cbn [vx vy vz m11 m12 m13 m21 m22 m23 m31 m32 m33]. apply v3_eq; cbn [vx vy vz]; first [ring|ring [E]].
  - exists (skw (V3 0 0 1)). split; [intros []; unfold mvmul, cross, skw; cbn; apply v3_eq; ring|].
    unfold mat_derive, vec_derive, row1, row2, row3, turning, mmul, skw; cbn. repeat match goal with |- _ /\ _ => split end; auto_derive; trivial; ring.
  - exists (grav resting). eexists. eexists. split; [apply gravityNed_ok|]. split.
    + rewrite dynamics_ok; [|lra|].
      * rewrite dyn_G. unfold G, dyn. reflexivity.
      * apply (box_regular 0 0 0); try (pose proof PI_RGT_0; lra). unfold Box, resting, v3zero. cbn. rewrite Rabs_R0. lra.
    + assert (E : vadd (vscale (/ 1) (mvmul (turning t) held)) (grav resting) = v3zero).
      { unfold held, turning, mvmul, vneg, vadd, vscale, v3zero, grav, resting. cbn. rewrite Rmult_0_r, sin_0. apply v3_eq; field. }
      rewrite E. unfold vec_derive, resting, v3zero, lat_rate, lon_rate. cbn. repeat match goal with |- _ /\ _ => split end; auto_derive; trivial; unfold Rdiv; ring.
Qed.
Lemma turning_sampled N : forall T h t, 0 < h -> t + INR N * h <= T -> sampled T h 0 (fun _ => held) (fun _ => V3 0 0 1) t (repeat (vscale h held, vscale h (V3 0 0 1), h) N) /\
  end_time t (repeat (vscale h held, vscale h (V3 0 0 1), h) N) = t + INR N * h.
Proof.
  induction N as [|N IH]; intros T h t Hh HT; cbn [repeat sampled end_time]; [cbn; split; [exact I|ring]|]. rewrite S_INR in *.
  assert (0 <= INR N * h) by (apply Rmult_le_pos; [apply pos_INR|lra]).
  destruct (IH T h (t + h)) as [I1 I2]; [lra|lra|]. rewrite I2. split; [|ring]. split; [lra|]. split; [lra|]. split.
  { intros E. apply (f_equal vz) in E. cbn in E. lra. }
  split; [|exact I1]. intros s _. unfold n1, vsub. cbn [vx vy vz]. rewrite !Rminus_eq_0, !Rabs_R0. lra.
Qed.
Example C129_case : forall T, 0 < T -> exists K N0, forall N, (N0 <= N)%nat -> exists l C1 y1, length l = N /\
  end_time 0 l = T /\ nav_run (m3id, resting) l = Ret (C1, y1) /\ d9 C1 (turning T) + d6 y1 resting <= K / INR N.
Proof.
  intros T HT. pose proof PI_RGT_0.
  destruct (C129_navigator_converges 0 0 0 (n1 held) 1 T) as (K & d & HK & Hd & Main); try lra; [apply n1_pos|].
  destruct (nfloor_ex (T / d) ltac:(left; apply Rdiv_lt_0_compat; lra)) as (m & _ & Hm).
  exists (K * T), (S m). intros N HN.
  assert (HN' : T / d < INR N) by (apply Rlt_le_trans with (INR m + 1); [exact Hm|rewrite <- S_INR; apply le_INR, HN]).
  assert (P : 0 < T / d) by (apply Rdiv_lt_0_compat; lra). set (h := T / INR N).
  assert (Hh : 0 < h) by (apply Rdiv_lt_0_compat; lra). assert (EN : INR N * h = T) by (unfold h; field; lra).
  assert (Hhd : h <= d). { unfold h. apply Rmult_le_reg_r with (INR N); [lra|]. unfold Rdiv. rewrite Rmult_assoc, Rinv_l, Rmult_1_r by lra.
    apply Rmult_lt_compat_r with (r := d) in HN'; [|lra]. unfold Rdiv in HN'. rewrite Rmult_assoc, Rinv_l in HN' by lra. lra. }
  destruct (turning_sampled N T h 0 Hh) as [S1 S2]; [lra|]. rewrite Rplus_0_l, EN in S2.
  assert (Z9 : d9 m3id (turning 0) = 0).
  { unfold d9, turning. rewrite cos_0, sin_0. unfold n9, n1, msub, row1, row2, row3, m3id. cbn. rewrite Ropp_0, !Rminus_eq_0, !Rabs_R0. ring. }
  destruct (Main turning (fun _ => resting) (fun _ => held) (fun _ => V3 0 0 1) (repeat (vscale h held, vscale h (V3 0 0 1), h) N) m3id resting h 0 (turning_motion T)) as (C1 & y1 & E1 & E2); try exact S1; try lra.
  - intros t _. split; [unfold Box, resting, v3zero; cbn; rewrite Rabs_R0; lra|]. split; [lra|]. unfold n1. cbn. rewrite Rabs_R0, Rabs_R1. lra.
  - rewrite Z9, d6_refl. lra.
  - eexists. exists C1, y1. split; [apply repeat_length|]. split; [exact S2|]. split; [exact E1|]. rewrite S2, Z9, d6_refl in E2.
    eapply Rle_trans; [exact E2|]. right. unfold h. field. lra.
Qed.

(** The calls above are those of the code, with the time step in seconds
    between two time stamps in microseconds. *)
Theorem C129_call_is_integrate : forall A y t0 d dV dTh t A1 y1, (- 2 ^ 63 <= t - t0 < 2 ^ 63)%Z ->
  (nav_call (A, y) dV dTh (IZR (t - t0) / 1000000) = Ret (A1, y1) <->
   integrate dV dTh t (Some (NavS (Some A) (Some y) t0 d)) = Ret (true, Some (NavS (Some A1) (Some y1) t (IZR (t - t0) / 1000000)))).
Proof. exact call_of_integrate. Qed.
Print Assumptions C129_call_is_integrate.
Example C129_call_case : exists A1, nav_call (m3id, resting) (vscale (1 / 100) held) (vscale (1 / 100) ez) (IZR (10000 - 0) / 1000000) = Ret (A1, resting).
Proof.
  set (m := (vscale (1 / 100) held, vscale (1 / 100) ez, 10000%Z)). set (n := NavS (Some m3id) (Some resting) 0 0).
  assert (N : vscale (1 / 100) ez <> v3zero) by (intros E; apply (f_equal vz) in E; cbn in E; lra).
  assert (U : dot ez ez = 1) by (unfold dot, ez; cbn; ring).
  destruct (run_defined n [m]) as (n' & E); [cbn; lia|].
  assert (P : pv n' = Some resting).
  { apply (hover [m] n n' m3id v3zero); try reflexivity; try exact E; cbn [vx vz v3zero]; try (rewrite Rabs_R0; pose proof PI_RGT_0; lra); try lra.
    cbn [hovers]. unfold s_dV, s_dTh, s_t, m. cbn [fst snd]. split; [exact N|]. split; [discriminate|]. split; [|exact I].
    rewrite mvmul_id, rotvec_axis by (auto; lra). match goal with |- rotate ez _ ?v = _ => set (v0 := v) end. rewrite (rotate_ez (1 / 100) (vx v0) (vy v0) (vz v0) : rotate ez _ v0 = _). unfold v0, held. clear v0. rewrite gravityNed_ok. cbn [vec_of]. unfold grav, resting, vscale, vneg. cbn. rewrite Rmult_0_r, sin_0. apply v3_eq; field. }
  destruct (run_attitude [m] n n' m3id E eq_refl) as (B & EB & _); [intros ? [<-|[]]; exact N|].
  exists (mmul m3id B). apply (call_of_integrate m3id resting 0 0); [unfold fits; lia|].
  cbn [run] in E. change (s_dV m) with (vscale (1 / 100) held) in E. change (s_dTh m) with (vscale (1 / 100) ez) in E. change (s_t m) with 10000%Z in E.
  destruct (integrate_eq (vscale (1 / 100) held) (vscale (1 / 100) ez) 10000 n) as [I1 _]. specialize (I1 ltac:(unfold fits; cbn; lia)). fold n. rewrite I1. rewrite I1 in E. cbn [bind snd] in E. injection E as <-.
  assert (K : forall a b c d a' b', a = a' -> b = b' -> Ret (true, Some (NavS a b c d)) = Ret (true, Some (NavS a' b' c d))) by (intros; subst; reflexivity).
  apply K; [exact EB|exact P].
Qed.
