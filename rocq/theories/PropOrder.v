(** Theorem C130: the navigator is accurate to first order in the step and no
    more. *)
From Coq Require Import Reals ZArith List Lra Lia.
From Coquelicot Require Import Coquelicot.
From Verif Require Import Base BaseVec SpecRot SpecEarth SpecStrapdown SpecConverge SpecOrder ModelGravity ModelNavUtils ModelStrapdown
  ProofVec ProofLip ProofConverge ProofOrder.
Import ListNotations.
Open Scope R_scope.

(** C130: a vehicle at rest that rolls.  Its motion satisfies the equations, the
    increments are the exact integrals of its force and rate, and still the
    computed east velocity after one second in [N] steps is 4/N to 5/N m/s. *)
Theorem C130_motion : forall T, motion T rolling (fun _ => at_rest) roll_force roll_rate.
Proof. exact rolling_motion. Qed.
Print Assumptions C130_motion.
Theorem C130_increments : forall t, vec_derive roll_dv t (roll_force t) /\ vec_derive roll_angle t (roll_rate t).
Proof. exact roll_integrals. Qed.
Print Assumptions C130_increments.
Theorem C130_first_order_only : forall N, (10 <= N)%nat -> exists C1 p v,
  nav_run (rolling 0, at_rest) (map (roll_step (1 / INR N)) (seq 0 N)) = Ret (C1, (p, v)) /\ C1 = rolling 1 /\ 4 / INR N <= vy v <= 5 / INR N.
Proof. exact first_order_only. Qed.
Print Assumptions C130_first_order_only.

(** An error that decreases like the square of the step is excluded. *)
Theorem C130_second_order_refuted : ~ exists K, forall N, (10 <= N)%nat -> exists C1 y1,
  nav_run (rolling 0, at_rest) (map (roll_step (1 / INR N)) (seq 0 N)) = Ret (C1, y1) /\ d6 y1 at_rest <= K * (1 / INR N * (1 / INR N)).
Proof.
  intros (K & HK). destruct (nfloor_ex (Rabs K) (Rabs_pos K)) as (m & _ & Hm).
  set (N := S (m + 10)). destruct (HK N ltac:(unfold N; lia)) as (C1 & y1 & E1 & B). destruct (first_order_only N ltac:(unfold N; lia)) as (C2 & p & v & E2 & _ & V & _).
  rewrite E1 in E2. injection E2 as -> ->.
  assert (HN : Rabs K + 10 < INR N) by (unfold N; rewrite S_INR, plus_INR; replace (INR 10) with 10 by (rewrite INR_IZR_INZ; reflexivity); lra).
  pose proof (Rabs_pos K). assert (Hv : vy v <= d6 (p, v) at_rest).
  { eapply Rle_trans; [|apply (c6_le (fun y => vy (snd y))); unfold c6; tauto]. unfold at_rest. cbn. rewrite Rminus_0_r. apply Rle_abs. }
  set (h := 1 / INR N) in *. assert (Hh : 0 < h) by (apply Rdiv_lt_0_compat; lra). assert (Eh : INR N * h = 1) by (unfold h; field; lra).
  replace (4 / INR N) with (4 * h) in V by (unfold h; field; lra). pose proof (Rle_abs K). nra.
Qed.
Print Assumptions C130_second_order_refuted.

(** With the code's own time stamps, 100 samples of 10 ms: a vehicle that never
    moved has an east velocity of 4 to 5 cm/s after one second. *)
Theorem C130_rolling_vehicle_drifts : forall d, exists n' C1 p v,
  run (Some (NavS (Some m3id) (Some at_rest) 0 d)) (map roll_sample (seq 0 100)) = Ret (Some n') /\
  RB2N n' = Some C1 /\ pv n' = Some (p, v) /\ C1 = rolling 1 /\ 4 / 100 <= vy v <= 5 / 100.
Proof. exact rolling_drifts. Qed.
Print Assumptions C130_rolling_vehicle_drifts.
(** The first increments: 0.1 rad about north, and the force of gravity turned
    by half of it. *)
Example C130_case : fst (roll_step (1 / 10) 0) = (V3 0 (gp_gEq * (cos (1 / 10) - 1)) (- (gp_gEq * sin (1 / 10))), V3 (1 / 10) 0 0).
Proof. unfold roll_step, roll_dv, roll_angle, vsub. cbn. rewrite Rmult_1_l, Rmult_0_l, sin_0, cos_0. f_equal; apply v3_eq; ring. Qed.
