(** Theorems C12-C16: src/util/NavUtils.cpp. *)
From Coq Require Import Reals List Lra Lia.
From Coquelicot Require Import Coquelicot.
From Verif Require Import Base BaseVec SpecRot SpecEarth ModelGravity ModelNavUtils ModelFrames
  ProofVec ProofFrames2 ProofNavUtils.
Import ListNotations.
Open Scope R_scope.

(** C12 *)
Theorem C12_skew_symmetric_is_cross_product : forall v, exists S, skewSymmetric v = (true, S) /\
  (forall w, mvmul S w = cross v w) /\ mtr S = mneg S /\
  (forall T, (forall w, mvmul T w = cross v w) -> T = S).
Proof. exact skew_cross. Qed.
Print Assumptions C12_skew_symmetric_is_cross_product.
Example C12_case : mvmul (snd (skewSymmetric (V3 1 2 3))) (V3 4 5 6) = V3 (-3) 6 (-3).
Proof. destruct (skew_cross (V3 1 2 3)) as (S & -> & H & _). cbn [snd]. rewrite H. vec_ring. Qed.

(** C13: along any differentiable path, the ECEF position moves with velocity
    RN2E * v if and only if the coordinate rates are those of the dynamics. *)
Theorem C13_position_rates_are_geodetic_kinematics :
  forall (lat lon h : R -> R) (t lat' lon' h' : R) v dVN gN dt p' v' M r,
  is_derive lat t lat' -> is_derive lon t lon' -> is_derive h t h' -> inside (lat t) (lon t) ->
  strapdownDynamics (V3 (lat t) (lon t) (h t), v) dVN gN dt = Ret (p', v') ->
  (vec_derive (fun u => vec_of (lla2Ecef (lat u) (lon u) (h u) r)) t
     (mvmul (mat_of (computeRNed2Ecef (lat t) (lon t) M)) v)
   <-> V3 lat' lon' h' = p').
Proof. exact position_kinematics. Qed.
Print Assumptions C13_position_rates_are_geodetic_kinematics.
Theorem C13_rates_defined_off_the_poles : forall lat lon h v dVN gN dt,
  Rabs lat < PI/2 -> -6300000 < h -> dt <> 0 ->
  exists r, strapdownDynamics (V3 lat lon h, v) dVN gN dt = Ret r.
Proof. exact dynamics_defined. Qed.
Print Assumptions C13_rates_defined_off_the_poles.
Lemma inside_case : inside (1/2) 1.
Proof. split; rewrite Rabs_right; pose proof PI2_1; lra. Qed.
Lemma dyn_case v dVN gN : exists r, strapdownDynamics (V3 (1/2) 1 100, v) dVN gN (1/100) = Ret r.
Proof. apply C13_rates_defined_off_the_poles; try lra. apply inside_case. Qed.
Example C13_case : exists p' v' : vec3,
  strapdownDynamics (V3 (1/2) 1 100, V3 10 20 30) (V3 1 0 0) (V3 0 0 9) (1/100) = Ret (p', v') /\
  is_derive (fun t => 1/2 + t * vx p') 0 (vx p').
Proof.
  destruct (dyn_case (V3 10 20 30) (V3 1 0 0) (V3 0 0 9)) as ([p' v'] & E). exists p', v'. split; auto.
  auto_derive; auto. ring.
Qed.

(** C14 *)
Theorem C14_velocity_rates_are_newton_in_rotating_frame :
  forall (lat lon : R -> R) (t : R) p' v h dVN gN dt v' M M',
  is_derive lat t (vx p') -> is_derive lon t (vy p') -> inside (lat t) (lon t) ->
  strapdownDynamics (V3 (lat t) (lon t) h, v) dVN gN dt = Ret (p', v') ->
  exists wen,
    mat_derive (fun u => mat_of (computeRNed2Ecef (lat u) (lon u) M)) t
      (mmul (mat_of (computeRNed2Ecef (lat t) (lon t) M)) (snd (skewSymmetric wen))) /\
    v' = vsub (vadd (vscale (/ dt) dVN) gN)
              (cross (vadd (vscale 2 (mvmul (mat_of (computeREcef2Ned (lat t) (lon t) M')) (V3 0 0 earth_rate))) wen) v).
Proof. exact velocity_newton. Qed.
Print Assumptions C14_velocity_rates_are_newton_in_rotating_frame.
Theorem C14_coriolis_does_no_work : forall y dVN gN dt p' v',
  strapdownDynamics y dVN gN dt = Ret (p', v') ->
  dot (snd y) v' = dot (snd y) (vadd (vscale (/ dt) dVN) gN).
Proof. exact coriolis_no_work. Qed.
Print Assumptions C14_coriolis_does_no_work.
Example C14_case : exists (p' v' : vec3) (lat lon : R -> R), inside (lat 0) (lon 0) /\
  is_derive lat 0 (vx p') /\ is_derive lon 0 (vy p') /\
  strapdownDynamics (V3 (lat 0) (lon 0) 100, V3 10 20 30) (V3 1 0 0) (V3 0 0 9) (1/100) = Ret (p', v').
Proof.
  destruct (dyn_case (V3 10 20 30) (V3 1 0 0) (V3 0 0 9)) as ([p' v'] & E).
  exists p', v', (fun t => 1/2 + t * vx p'), (fun t => 1 + t * vy p').
  rewrite !Rmult_0_l, !Rplus_0_r. split; [apply inside_case|]. split; [auto_derive; auto; ring|].
  split; [auto_derive; auto; ring|auto].
Qed.

(** C15 *)
Theorem C15_rk4_is_classical_runge_kutta : forall y dt dVN gN yk y', length yk = 6%nat ->
  (strapdownRk4 (s6list y) dt dVN gN yk = Ret (true, s6list y') <->
   rk4_spec padd pscale (fun y => strapdownDynamics y dVN gN dt) dt y y').
Proof. exact rk4_butcher. Qed.
Print Assumptions C15_rk4_is_classical_runge_kutta.
Theorem C15_rk4_longitude_equivariant : forall k y dt dVN gN yk, length yk = 6%nat ->
  strapdownRk4 (s6list (shift k y)) dt dVN gN yk =
  (r <- strapdownRk4 (s6list y) dt dVN gN yk ;;
   match r with
   | (true, [lat; lon; h; vN; vE; vD]) => Ret (true, [lat; lon + k; h; vN; vE; vD])
   | _ => Ret r
   end).
Proof. exact rk4_longitude. Qed.
Print Assumptions C15_rk4_longitude_equivariant.
Theorem C15_rk4_reflection : forall y y' dt dVN gN yk, length yk = 6%nat ->
  strapdownRk4 (s6list y) dt dVN gN yk = Ret (true, s6list y') ->
  strapdownRk4 (s6list (mirror y)) dt (mirrorv dVN) (mirrorv gN) yk = Ret (true, s6list (mirror y')).
Proof. exact rk4_mirror. Qed.
Print Assumptions C15_rk4_reflection.
(** Equilibrium: at rest with the specific force balancing gravity nothing moves. *)
Theorem C15_rk4_rest_stays_at_rest : forall p dt dVN gN yk, length yk = 6%nat -> dt <> 0 ->
  Rabs (vx p) < PI/2 -> -6300000 < vz p -> dVN = vscale (- dt) gN ->
  strapdownRk4 (s6list (p, v3zero)) dt dVN gN yk = Ret (true, s6list (p, v3zero)).
Proof. exact rk4_rest. Qed.
Print Assumptions C15_rk4_rest_stays_at_rest.
Example C15_case :
  strapdownRk4 [1/2; 1; 100; 0; 0; 0] (1/100) (V3 0 0 (-(98/1000))) (V3 0 0 (98/10)) [7;7;7;7;7;7]
  = Ret (true, [1/2; 1; 100; 0; 0; 0]).
Proof.
  apply (C15_rk4_rest_stays_at_rest (V3 (1/2) 1 100)); auto; cbn [vx vz]; try lra; try apply inside_case.
  unfold vscale; cbn [vx vy vz]. apply v3_eq; lra.
Qed.

(** C16 *)
Theorem C16_rk4_guards : forall y dt dVN gN yk,
  (length y <> 6%nat \/ length yk <> 6%nat -> strapdownRk4 y dt dVN gN yk = Ret (false, yk)) /\
  (forall ok yk', strapdownRk4 y dt dVN gN yk = Ret (ok, yk') ->
     (ok = true <-> length y = 6%nat /\ length yk = 6%nat) /\ length yk' = length yk /\ (ok = false -> yk' = yk)).
Proof. exact rk4_guard. Qed.
Print Assumptions C16_rk4_guards.
Theorem C16_rk4_zero_step : forall y dVN gN yk, length y = 6%nat -> length yk = 6%nat ->
  strapdownRk4 y 0 dVN gN yk = NonFinite.
Proof. exact rk4_dt0. Qed.
Print Assumptions C16_rk4_zero_step.
Example C16_case : strapdownRk4 [1;2;3] 1 v3zero v3zero [1;2;3;4;5;6] = Ret (false, [1;2;3;4;5;6]).
Proof. apply C16_rk4_guards. left. discriminate. Qed.
