(** Theorems C121 and C122: the navigation step in double arithmetic. *)
From Coq Require Import Reals ZArith List Lra.
From Flocq Require Import Core.
From Verif Require Import Base BaseVec SpecRot SpecFloatOps ModelDate ModelNavUtils ModelStrapdown ModelStrapdownFloat ModelFramesFloat ModelNavFloat
  ProofVec ProofStrapdownFloat ProofStrapdownFloat2 ProofFramesFloat ProofNavFloat2.
Import ListNotations.
Open Scope R_scope.

(** C121: one Runge-Kutta step computed with rounding stays within 1e-15 rad in
    latitude, 4e-15 rad in longitude, 6e-11 m in height and 3e-12 m/s in each
    velocity component of the exact step from the same inputs. *)
Theorem C121_rk4_error : forall F pow2 pow15 lat lon h vN vE vD dt dVN gN yk, float_ok F -> pow2_ok pow2 ->
  (forall x, 1 / 2 <= x <= 2 -> Rabs (pow15 x - Rpower x (3 / 2)) <= 4 * u64) ->
  Rabs lat <= 148 / 100 -> Rabs lon <= 7 -> Rabs h <= 100000 -> Rabs vN <= 1000 -> Rabs vE <= 1000 -> Rabs vD <= 1000 ->
  0 < Rabs dt <= 1 -> Rabs (vx dVN) <= 100 * Rabs dt -> Rabs (vy dVN) <= 100 * Rabs dt -> Rabs (vz dVN) <= 100 * Rabs dt ->
  Rabs (vx gN) <= 11 -> Rabs (vy gN) <= 11 -> Rabs (vz gN) <= 11 -> length yk = 6%nat ->
  exists a b c d e f a' b' c' d' e' f',
    strapdownRk4 [lat; lon; h; vN; vE; vD] dt dVN gN yk = Ret (true, [a; b; c; d; e; f]) /\
    strapdownRk4_f F pow2 pow15 [lat; lon; h; vN; vE; vD] dt dVN gN yk = Ret (true, [a'; b'; c'; d'; e'; f']) /\
    Rabs (a' - a) <= 1 / 1000000000000000 /\ Rabs (b' - b) <= 4 / 1000000000000000 /\ Rabs (c' - c) <= 6 / 100000000000 /\
    Rabs (d' - d) <= 3 / 1000000000000 /\ Rabs (e' - e) <= 3 / 1000000000000 /\ Rabs (f' - f) <= 3 / 1000000000000.
Proof. exact rk4_fn. Qed.
Print Assumptions C121_rk4_error.
Theorem C121_exact_arithmetic : forall y dt dVN gN yk,
  strapdownRk4_f exact_ops (fun x => x * x) (fun x => Rpower x (3 / 2)) y dt dVN gN yk = strapdownRk4 y dt dVN gN yk.
Proof. exact rk4_exact. Qed.
Print Assumptions C121_exact_arithmetic.
(** Correctly rounded squaring and three-halves power in binary64 meet the
    hypotheses. *)
Theorem C121_binary64 : float_ok binary64_ops /\ pow2_ok pow2_64 /\
  forall x, 1 / 2 <= x <= 2 -> Rabs (rnd64 (Rpower x (3 / 2)) - Rpower x (3 / 2)) <= 4 * u64.
Proof. exact (conj binary64_ok (conj pow2_64_ok pow15_64_ok)). Qed.
Print Assumptions C121_binary64.
Example C121_case : Rabs (7 / 10) <= 148 / 100 /\ Rabs (-2) <= 7 /\ Rabs 9000 <= 100000 /\ Rabs 230 <= 1000 /\
  0 < Rabs (1 / 100) <= 1 /\ Rabs (- (981 / 10000)) <= 100 * Rabs (1 / 100) /\ Rabs (981 / 100) <= 11 /\ length [0; 0; 0; 0; 0; 0] = 6%nat.
Proof.
  rewrite (Rabs_left (-2)), (Rabs_left (- (981 / 10000))), !Rabs_right by lra. repeat match goal with |- _ /\ _ => split end; try lra. reflexivity.
Qed.

(** C122: one call of integrate computed with rounding, from a stored state that
    is a rotation and a position away from the poles, stays within 3e-13 of a
    rotation applied to any vector, 1e-15 and 4e-15 rad in latitude and
    longitude, 1e-10 m in height and 3e-11 m/s in velocity of the exact call. *)
Theorem C122_integrate_error : forall F pow2 pow15 n A lat lon h vN vE vD dV dTh t, float_ok F -> pow2_ok pow2 ->
  (forall x, 1 / 2 <= x <= 2 -> Rabs (pow15 x - Rpower x (3 / 2)) <= 4 * u64) ->
  RB2N n = Some A -> pv n = Some (V3 lat lon h, V3 vN vE vD) -> is_rotation A ->
  Rabs lat <= 148 / 100 -> Rabs lon <= 7 -> Rabs h <= 100000 -> Rabs vN <= 1000 -> Rabs vE <= 1000 -> Rabs vD <= 1000 ->
  (1 <= t - tov n <= 1000000)%Z -> norm dV <= 100 * (IZR (t - tov n) / 1000000) -> bpow radix2 (-480) <= norm dTh <= 4 ->
  exists B p v A' p' v',
    integrate dV dTh t (Some n) = Ret (true, Some (NavS (Some B) (Some (p, v)) t (IZR (t - tov n) / 1000000))) /\
    integrate_f F pow2 pow15 dV dTh t A (V3 lat lon h) (V3 vN vE vD) (tov n) = Ret (true, (A', (p', v'))) /\
    is_rotation B /\ close_to (3 / 10000000000000) A' (mvmul B) /\
    Rabs (vx p' - vx p) <= 1 / 1000000000000000 /\ Rabs (vy p' - vy p) <= 4 / 1000000000000000 /\ Rabs (vz p' - vz p) <= 1 / 10000000000 /\
    Rabs (vx v' - vx v) <= 3 / 100000000000 /\ Rabs (vy v' - vy v) <= 3 / 100000000000 /\ Rabs (vz v' - vz v) <= 3 / 100000000000.
Proof. exact integrate_float. Qed.
Print Assumptions C122_integrate_error.
Theorem C122_exact_arithmetic : forall dV dTh t n A lla vNed A' y, RB2N n = Some A -> pv n = Some (lla, vNed) ->
  integrate_f exact_ops (fun x => x * x) (fun x => Rpower x (3 / 2)) dV dTh t A lla vNed (tov n) = Ret (true, (A', y)) <->
  integrate dV dTh t (Some n) = Ret (true, Some (NavS (Some A') (Some y) t (IZR (t - tov n) / 1000000))).
Proof. exact integrate_exact. Qed.
Print Assumptions C122_exact_arithmetic.
(** A repeated time of validity yields no numbers: the velocity increment is
    divided by zero. *)
Theorem C122_repeated_time : forall pow2 pow15 dV dTh A lla vNed t z,
  integrate_f binary64_ops pow2 pow15 dV dTh t A lla vNed t <> Ret (true, z).
Proof. exact same_time. Qed.
Print Assumptions C122_repeated_time.
Example C122_case : is_rotation m3id /\ (1 <= 10000 - 0 <= 1000000)%Z /\
  norm (V3 0 0 (- (981 / 10000))) <= 100 * (IZR (10000 - 0) / 1000000) /\ bpow radix2 (-480) <= norm (V3 0 0 (1 / 1000)) <= 4.
Proof.
  split; [exact rotation_id|]. split; [split; discriminate|].
  assert (N : forall z, norm (V3 0 0 z) = Rabs z).
  { intros z. unfold norm, dot. cbn [vx vy vz]. replace (0 * 0 + 0 * 0 + z * z) with (Rsqr z) by (unfold Rsqr; ring). apply sqrt_Rsqr_abs. }
  change (10000 - 0)%Z with 10000%Z. rewrite !N, Rabs_left, Rabs_right by lra. split; [lra|]. split; [|lra].
  apply Rle_trans with (bpow radix2 (-10)); [apply bpow_le; discriminate|]. cbn. lra.
Qed.
