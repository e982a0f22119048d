(** Theorems C103-C105: the navigator in double arithmetic. *)
From Coq Require Import Reals ZArith List Lra Lia.
From Flocq Require Import Core IEEE754.Binary IEEE754.Bits.
From Verif Require Import Base BaseVec SpecRot SpecFloat ModelAttitude ModelStrapdown ModelStrapdownFloat SpecStrapdown SpecFloatOps
  ProofVec ProofStrapdown2 ProofDate ProofStrapdownFloat ProofStrapdownFloat2 ProofShort.
Import ListNotations.
Open Scope R_scope.

(** C103: start from a stored attitude within [e] of a rotation [A0], and apply
    rotation increments of 2^-480 to 4 radians.  In any arithmetic that meets
    the error model, the attitude after n updates is finite and within
    e + 2100 n 2^-53 of the exact composition of the rotations. *)
Theorem C103_rounding_error_grows_linearly : forall F A0 A e l, float_ok F -> is_rotation A0 ->
  close_to e A (mvmul A0) -> 0 <= e ->
  (forall d, In d l -> bpow radix2 (-480) <= norm d <= 4) -> e + 2100 * u64 * INR (length l) <= 1 ->
  exists A', attitude_f F A l = Ret A' /\
    close_to (e + 2100 * u64 * INR (length l)) A' (fun v => mvmul A0 (fold_right rotvec v l)).
Proof. exact chain_rotation. Qed.
Print Assumptions C103_rounding_error_grows_linearly.

(** In particular the stored matrix stays nearly orthogonal. *)
Theorem C103_lengths_and_angles_kept : forall F A0 l, float_ok F -> is_rotation A0 ->
  (forall d, In d l -> bpow radix2 (-480) <= norm d <= 4) -> 2100 * u64 * INR (length l) <= 1 ->
  exists A', attitude_f F A0 l = Ret A' /\
    forall v w, Rabs (dot (mvmul A' v) (mvmul A' w) - dot v w) <= 6300 * u64 * INR (length l) * (norm v * norm w).
Proof. exact chain_orthogonal. Qed.
Print Assumptions C103_lengths_and_angles_kept.

(** From Euler angles on: the initial attitude computed by euler2Dcm counts as
    one more update. *)
Theorem C103_initialize_then_update : forall F rph l, float_ok F ->
  (forall d, In d l -> bpow radix2 (-480) <= norm d <= 4) -> 2100 * u64 * (INR (length l) + 1) <= 1 ->
  exists A', attitude_f F (snd (euler2Dcm_f F rph)) l = Ret A' /\
    close_to (2100 * u64 * (INR (length l) + 1)) A' (fun v => mvmul (snd (euler2Dcm rph)) (fold_right rotvec v l)).
Proof. exact init_chain. Qed.
Print Assumptions C103_initialize_then_update.

(** The error model holds for binary64, and without errors the computation is
    that of the other strapdown theorems. *)
Theorem C103_binary64_meets_the_model : float_ok binary64_ops.
Proof. exact binary64_ok. Qed.
Print Assumptions C103_binary64_meets_the_model.
Theorem C103_exact_arithmetic : forall A d, updateAttitude_f exact_ops A d = updateAttitude A d.
Proof. exact exact_update. Qed.
Print Assumptions C103_exact_arithmetic.

(** A billion increments of one milliradian. *)
Example C103_case : exists l, INR (length l) = 1000000000 /\ is_rotation m3id /\
  (forall d, In d l -> bpow radix2 (-480) <= norm d <= 4) /\ 2100 * u64 * INR (length l) <= 1.
Proof.
  exists (repeat (V3 0 0 (1/1000)) (Z.to_nat 1000000000)). rewrite repeat_length, INR_IZR_INZ, Z2Nat.id by lia.
  split; [reflexivity|]. split; [apply rotation_id|]. split.
  - intros d Hd. apply repeat_spec in Hd. subst d.
    replace (norm (V3 0 0 (1/1000))) with (1/1000).
    + split; [|lra]. apply mu_le.
    + unfold norm, dot; cbn. replace (0 * 0 + 0 * 0 + 1 / 1000 * (1 / 1000)) with (1 / 1000 * (1 / 1000)) by ring. rewrite sqrt_square; lra.
  - rewrite u64_val. lra.
Qed.

(** C104 is false as stated: in binary64 a rotation increment shorter than
    2^-538 is not zero, but one such increment makes the attitude non-finite
    for good. *)
Theorem C104_short_increment_refuted :
  (forall A l d, In d l -> norm d < bpow radix2 (-538) -> attitude_f binary64_ops A l = NonFinite) /\
  exists d, d <> v3zero /\ norm d < bpow radix2 (-538).
Proof. exact short_refuted. Qed.
Print Assumptions C104_short_increment_refuted.
(** The exact condition: the attitude stays defined if and only if every
    increment has a component whose square exceeds 2^-1075, half the least
    positive double; that is a component above 2^-537.5.  Otherwise the
    outcome is [NonFinite].  (Overflow is outside this model: an increment
    from 2^-480 to 4 keeps the attitude near a rotation by C103.) *)
Theorem C104_finite_iff : forall A l, (exists A', attitude_f binary64_ops A l = Ret A') <->
  (forall d, In d l -> bpow radix2 (-1075) < vx d * vx d \/ bpow radix2 (-1075) < vy d * vy d \/ bpow radix2 (-1075) < vz d * vz d).
Proof. exact finite_exactly. Qed.
Print Assumptions C104_finite_iff.
Theorem C104_lost_otherwise : forall A l d, In d l ->
  vx d * vx d <= bpow radix2 (-1075) -> vy d * vy d <= bpow radix2 (-1075) -> vz d * vz d <= bpow radix2 (-1075) ->
  attitude_f binary64_ops A l = NonFinite.
Proof. exact lost_history. Qed.
Print Assumptions C104_lost_otherwise.
(** Histories on both sides: 2^-537 is kept, 2^-538 along each axis is lost. *)
Example C104_case : (exists A', attitude_f binary64_ops m3id [V3 0 0 (bpow radix2 (-537))] = Ret A') /\
  attitude_f binary64_ops m3id [V3 (bpow radix2 (-538)) (bpow radix2 (-538)) (bpow radix2 (-538))] = NonFinite.
Proof.
  split.
  - apply finite_exactly. intros d [<-|[]]. right; right; cbn [vz]. rewrite <- bpow_plus. apply bpow_lt. lia.
  - eapply lost_history; [left; reflexivity|..]; cbn [vx vy vz]; rewrite <- bpow_plus; apply bpow_le; lia.
Qed.
(** The range of C103 with e = 0. *)
Theorem C104_increment_from_2_480_is_safe : forall A0 l, is_rotation A0 ->
  (forall d, In d l -> bpow radix2 (-480) <= norm d <= 4) -> 2100 * u64 * INR (length l) <= 1 ->
  exists A', attitude_f binary64_ops A0 l = Ret A'.
Proof. exact long_finite. Qed.
Print Assumptions C104_increment_from_2_480_is_safe.

(** C105: time tags at most 2^52 microseconds (142 years) apart.  The stored
    step is finite and within half a microsecond of the true one; a later tag
    always gives a larger step, so the step has the sign of the difference and
    is zero for equal tags only. *)
Theorem C105_time_step : forall t t0, (Z.abs (t - t0) <= 2 ^ 52)%Z ->
  exists b, timeStep64 t t0 = Ret b /\ finite64 b /\ Rabs (rval b - IZR (t - t0) / 1000000) < 5 / 10000000.
Proof. exact step_near. Qed.
Print Assumptions C105_time_step.
Theorem C105_time_step_increasing : forall t t' t0 b b',
  (Z.abs (t - t0) <= 2 ^ 52)%Z -> (Z.abs (t' - t0) <= 2 ^ 52)%Z ->
  timeStep64 t t0 = Ret b -> timeStep64 t' t0 = Ret b' -> (t < t')%Z -> rval b < rval b'.
Proof. exact step_increasing. Qed.
Print Assumptions C105_time_step_increasing.
Theorem C105_time_step_sign : forall t t0 b, (Z.abs (t - t0) <= 2 ^ 52)%Z -> timeStep64 t t0 = Ret b ->
  (rval b = 0 <-> t = t0) /\ (0 < rval b <-> (t0 < t)%Z).
Proof. exact step_sign. Qed.
Print Assumptions C105_time_step_sign.
(** A step of ten milliseconds is the double nearest to 0.01. *)
Example C105_case : exists b, timeStep64 1500000000010000 1500000000000000 = Ret b /\ 0 < rval b.
Proof.
  destruct (step_near 1500000000010000 1500000000000000) as (b & E & _); [lia|]. exists b. split; [exact E|].
  apply (step_sign 1500000000010000 1500000000000000 b); [lia|exact E|lia].
Qed.
