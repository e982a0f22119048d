(** Theorem C137: sensors and initial state determine the motion. *)
From Coq Require Import Reals List Lra.
From Coquelicot Require Import Coquelicot.
From Verif Require Import Base BaseVec SpecRot SpecEarth SpecConverge ModelAttitude ModelGravity ModelNavUtils ModelStrapdown
  ProofVec ProofGravity ProofNavUtils ProofLip ProofConverge ProofUnique PropConverge.
Open Scope R_scope.

(** C137: two motions by the equations of the code, off the poles, below 6200 km
    and within bounds on velocity, force and rate, never get further apart than
    a constant times (their distance at the start + the largest difference of
    force and rate). *)
Theorem C137_motions_stay_close : forall A H V Fm W T, 0 <= A < PI / 2 -> 0 <= H <= 6200000 -> 0 <= V -> 0 <= Fm -> 0 <= W -> 0 <= T ->
  exists K, 0 < K /\ forall C1 y1 f1 w1 C2 y2 f2 w2 eps,
    motion T C1 y1 f1 w1 -> motion T C2 y2 f2 w2 -> 0 <= eps ->
    (forall t, 0 <= t <= T -> Box A H V (y1 t) /\ Box A H V (y2 t) /\ n1 (f1 t) <= Fm /\ n1 (w1 t) <= W /\
      n1 (vsub (f1 t) (f2 t)) <= eps /\ n1 (vsub (w1 t) (w2 t)) <= eps) ->
    forall t, 0 <= t <= T -> d9 (C1 t) (C2 t) + d6 (y1 t) (y2 t) <= K * (d9 (C1 0) (C2 0) + d6 (y1 0) (y2 0) + eps).
Proof. exact motions_close. Qed.
Print Assumptions C137_motions_stay_close.
(** So there is at most one motion for given sensors and a given start. *)
Theorem C137_motion_is_unique : forall A H V Fm W T C1 y1 C2 y2 f w, 0 <= A < PI / 2 -> 0 <= H <= 6200000 -> 0 <= V -> 0 <= Fm -> 0 <= W -> 0 <= T ->
  motion T C1 y1 f w -> motion T C2 y2 f w ->
  (forall t, 0 <= t <= T -> Box A H V (y1 t) /\ Box A H V (y2 t) /\ n1 (f t) <= Fm /\ n1 (w t) <= W) ->
  C1 0 = C2 0 -> y1 0 = y2 0 -> forall t, 0 <= t <= T -> C1 t = C2 t /\ y1 t = y2 t.
Proof. exact motions_unique. Qed.
Print Assumptions C137_motion_is_unique.
(** A unit on the equator that measures its weight and 1 rad/s about the vertical
    turns on the spot and does nothing else. *)
Example C137_case : forall T C y, 0 <= T -> motion T C y (fun _ => held) (fun _ => V3 0 0 1) -> C 0 = m3id -> y 0 = resting ->
  (forall t, 0 <= t <= T -> Box 1 10000 300 (y t)) -> forall t, 0 <= t <= T -> C t = turning t /\ y t = resting.
Proof.
  intros T C y HT Hm EC Ey Hb t Ht. pose proof PI2_1.
  apply (C137_motion_is_unique 1 10000 300 (n1 held) 1 T C y turning (fun _ => resting) (fun _ => held) (fun _ => V3 0 0 1)); try lra; auto.
  - apply n1_pos.
  - apply turning_motion.
  - intros s Hs. split; [auto|]. split; [unfold Box, resting, v3zero; cbn; rewrite Rabs_R0; lra|]. split; [lra|]. unfold n1. cbn. rewrite Rabs_R0, Rabs_R1. lra.
  - rewrite EC. unfold turning, m3id. rewrite cos_0, sin_0, Ropp_0. reflexivity.
Qed.
Example C137_exists : motion 1 turning (fun _ => resting) (fun _ => held) (fun _ => V3 0 0 1).
Proof. exact (turning_motion 1). Qed.
