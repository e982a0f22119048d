(** Theorem C128: the measurement compensation in double arithmetic. *)
From Coq Require Import Reals List String Lra.
From Verif Require Import Base BaseVec ModelDate ModelCompensator ModelStrapdownFloat ModelCompFloat SpecFloatOps ProofStrapdownFloat2 ProofCompFloat.
Import ListNotations.
Open Scope R_scope.

(** Every component is within ten roundings of the sum of the sizes of its terms,
    measured after the bias is taken off, plus what underflow may add. *)
Theorem C128_compensation_error : forall F c meas ty b m0 m1 m2 m3 m4 m5 sf, float_ok F ->
  ty = "accel"%string /\ accel c = Err (Some b) [m0; m1; m2; m3; m4; m5] (Some sf) \/
  ty = "gyro"%string /\ gyro c = Err (Some b) [m0; m1; m2; m3; m4; m5] (Some sf) ->
  exists y ye, compensateMeasurement_f F c meas ty = Ret (true, y) /\ compensateMeasurement c meas ty = Ret (true, ye) /\
  let d := vsub meas b in
  let within x xe s a1 a2 a3 := Rabs (x - xe) <= 10 * u64 * Rabs s * (Rabs (a1 * vx d) + Rabs (a2 * vy d) + Rabs (a3 * vz d)) +
                                10 * eta64 * (1 + Rabs s * (Rabs a1 + Rabs a2 + Rabs a3) + (Rabs (vx d) + Rabs (vy d) + Rabs (vz d))) in
  within (vx y) (vx ye) (vx sf) 1 m0 m1 /\ within (vy y) (vy ye) (vy sf) m2 1 m3 /\ within (vz y) (vz ye) (vz sf) m4 m5 1.
Proof. exact comp_err. Qed.
Print Assumptions C128_compensation_error.
Theorem C128_exact_arithmetic : forall c v ty, compensateMeasurement_f exact_ops c v ty = compensateMeasurement c v ty.
Proof. exact exact_comp. Qed.
Print Assumptions C128_exact_arithmetic.
(** With no errors set, binary64 returns every measurement bit for bit. *)
Theorem C128_identity : forall c x y z ty, rnd64 x = x -> rnd64 y = y -> rnd64 z = z ->
  ty = "accel"%string /\ accel c = Err (Some v3zero) [0; 0; 0; 0; 0; 0] (Some (V3 1 1 1)) \/
  ty = "gyro"%string /\ gyro c = Err (Some v3zero) [0; 0; 0; 0; 0; 0] (Some (V3 1 1 1)) ->
  compensateMeasurement_f binary64_ops c (V3 x y z) ty = Ret (true, V3 x y z).
Proof. exact comp_identity. Qed.
Print Assumptions C128_identity.
(** A gyroscope with a bias and scale factors, read through set and compensate. *)
Example C128_case : exists c y ye, setGyroscopeErrors (V3 (1 / 1000) 0 0) [1 / 100; 0; 0; 0; 0; 0] (V3 1 2 1) newCompensator = (true, c) /\
  compensateMeasurement_f binary64_ops c (V3 (1 / 10) 1 0) "gyro" = Ret (true, y) /\
  compensateMeasurement c (V3 (1 / 10) 1 0) "gyro" = Ret (true, ye) /\ ye = V3 (109 / 1000) 2 0 /\
  Rabs (vx y - vx ye) <= 2 * u64 + 40 * eta64.
Proof.
  set (c := Comp (accel newCompensator) (Err (Some (V3 (1 / 1000) 0 0)) [1 / 100; 0; 0; 0; 0; 0] (Some (V3 1 2 1)))).
  destruct (C128_compensation_error binary64_ops c (V3 (1 / 10) 1 0) "gyro" (V3 (1 / 1000) 0 0) (1 / 100) 0 0 0 0 0 (V3 1 2 1) binary64_ok
    (or_intror (conj eq_refl eq_refl))) as (y & ye & E1 & E2 & E3 & _).
  exists c, y, ye. split; [reflexivity|]. split; [exact E1|]. split; [exact E2|].
  assert (EE : ye = V3 (109 / 1000) 2 0).
  { cbn in E2. injection E2 as <-. unfold mvmul, mmul, dot. cbn. f_equal; field. }
  split; [exact EE|]. cbv zeta in E3. unfold vsub in E3. cbn [vx vy vz] in E3. eapply Rle_trans; [exact E3|].
  rewrite !Rabs_pos_eq by lra. assert (0 <= u64) by apply Flocq.Core.Raux.bpow_ge_0. assert (0 <= eta64) by apply Flocq.Core.Raux.bpow_ge_0. lra.
Qed.
