(** Theorem C166, continued: navigation equations and Runge-Kutta step. *)
From Coq Require Import Reals ZArith List Lra Lia.
From Flocq Require Import Core.
From Verif Require Import Base BaseVec ModelDate ModelStrapdownFloat ModelNavFloat SpecOverflow ProofOverflow9 ProofOverflow10.
Import ListNotations.
Open Scope R_scope.

(** One evaluation: all numbers up to 2^200, the height above -2^22 m, the
    rounded cosine of the latitude and the time step at least 2^-200. *)
Theorem C166_dynamics_never_overflow : forall r y dVN gN dt, binary64_in_range r ->
  bpow radix2 (-200) <= Rabs (rnd64 (cos (vx (fst y)))) -> bpow radix2 (-200) <= Rabs dt ->
  - bpow radix2 22 <= vz (fst y) <= bpow radix2 200 ->
  (Rabs (vx (snd y)) <= bpow radix2 200 /\ Rabs (vy (snd y)) <= bpow radix2 200 /\ Rabs (vz (snd y)) <= bpow radix2 200) ->
  (Rabs (vx dVN) <= bpow radix2 200 /\ Rabs (vy dVN) <= bpow radix2 200 /\ Rabs (vz dVN) <= bpow radix2 200) ->
  (Rabs (vx gN) <= bpow radix2 200 /\ Rabs (vy gN) <= bpow radix2 200 /\ Rabs (vz gN) <= bpow radix2 200) ->
  strapdownDynamics_f (ops_of r) (fun x => r (x * x)) (fun x => r (Rpower x (3 / 2))) y dVN gN dt =
  strapdownDynamics_f binary64_ops (fun x => rnd64 (x * x)) (fun x => rnd64 (Rpower x (3 / 2))) y dVN gN dt.
Proof. exact dynamics_same. Qed.
Print Assumptions C166_dynamics_never_overflow.

(** A whole step: latitude up to 1.48 rad, height up to 2^19 m, velocity up to
    2^12 m/s, step from 2^-200 to 1 s, acceleration and gravity up to
    2^7 m/s^2.  The step succeeds. *)
Theorem C166_rk4_step_never_overflows : forall r lat lon h vN vE vD dt dVN gN, binary64_in_range r ->
  Rabs lat <= 148 / 100 -> Rabs lon <= bpow radix2 100 -> Rabs h <= bpow radix2 19 ->
  (forall x, In x [vN; vE; vD] -> Rabs x <= bpow radix2 12) ->
  bpow radix2 (-200) <= dt <= 1 ->
  (forall x, In x [vx dVN; vy dVN; vz dVN] -> Rabs x <= bpow radix2 7 * dt) ->
  (forall x, In x [vx gN; vy gN; vz gN] -> Rabs x <= bpow radix2 7) ->
  let step F p2 p15 := strapdownRk4_f F p2 p15 [lat; lon; h; vN; vE; vD] dt dVN gN [0; 0; 0; 0; 0; 0] in
  let exact64 := step binary64_ops (fun x => rnd64 (x * x)) (fun x => rnd64 (Rpower x (3 / 2))) in
  step (ops_of r) (fun x => r (x * x)) (fun x => r (Rpower x (3 / 2))) = exact64 /\ exists l, exact64 = Ret (true, l).
Proof. exact rk4_vec_same. Qed.
Print Assumptions C166_rk4_step_never_overflows.
(** Cruise flight at 250 m/s with steps of 10 ms. *)
Example C166_rk4_case : Rabs (3 / 5) <= 148 / 100 /\ Rabs (-2) <= bpow radix2 100 /\ Rabs 1000 <= bpow radix2 19 /\ Rabs 250 <= bpow radix2 12 /\
  (bpow radix2 (-200) <= 1 / 100 <= 1) /\ Rabs (-1 / 10) <= bpow radix2 7 * (1 / 100) /\ Rabs (98 / 10) <= bpow radix2 7.
Proof. exact rk4_case_bounds. Qed.
