(** The unit tests of /repo/test/StrapdownTest.cpp and CompensatorTest.cpp,
    proved of the models. *)
From Coq Require Import Reals ZArith List Lra String.
From Verif Require Import Base BaseVec CheckNum TestBase ModelAttitude ModelGravity ModelNavUtils ModelStrapdown ModelCompensator TestGravity.
Import ListNotations.
Open Scope R_scope.

(** StrapdownTest.cpp 17-32 *)
Example init_ok s : fst (initialize (V3 0 0 0) (V3 0 0 0) (V3 0 0 0) 1664271553028564 s) = true.
Proof. reflexivity. Qed.

Definition in9 (m : mat3) (i1 i2 i3 i4 i5 i6 i7 i8 i9 : itv) : Prop :=
  rng (m11 m) i1 /\ rng (m12 m) i2 /\ rng (m13 m) i3 /\ rng (m21 m) i4 /\ rng (m22 m) i5 /\ rng (m23 m) i6 /\
  rng (m31 m) i7 /\ rng (m32 m) i8 /\ rng (m33 m) i9.
Lemma inv9 (o : outcome (bool * mat3)) i1 i2 i3 i4 i5 i6 i7 i8 i9 :
  holds o (fun r => fst r = true /\ in9 (snd r) i1 i2 i3 i4 i5 i6 i7 i8 i9) -> exists a b c d e f g h k,
  o = Ret (true, M3 a b c d e f g h k) /\ rng a i1 /\ rng b i2 /\ rng c i3 /\ rng d i4 /\ rng e i5 /\ rng f i6 /\ rng g i7 /\ rng h i8 /\ rng k i9.
Proof. destruct o as [(b & m)| | | | ]; cbn; try easy. intros (-> & H). destruct m. unfold in9 in H. cbn in H. do 9 eexists. split; [reflexivity|]. exact H. Qed.
Lemma inv3 (o : outcome (bool * vec3)) i1 i2 i3 :
  holds o (fun r => fst r = true /\ rng (vx (snd r)) i1 /\ rng (vy (snd r)) i2 /\ rng (vz (snd r)) i3) -> exists a b c,
  o = Ret (true, V3 a b c) /\ rng a i1 /\ rng b i2 /\ rng c i3.
Proof. destruct o as [(b & v)| | | | ]; cbn; try easy. intros (-> & H). destruct v. cbn in H. do 3 eexists. split; [reflexivity|]. exact H. Qed.
Lemma inv6 (o : outcome (bool * VectorXd)) P :
  holds o (fun r => fst r = true /\ exists a b c d e f, snd r = [a; b; c; d; e; f] /\ P a b c d e f) -> exists a b c d e f,
  o = Ret (true, [a; b; c; d; e; f]) /\ P a b c d e f.
Proof. destruct o as [(b & v)| | | | ]; cbn; try easy. intros (-> & a & b1 & c & d & e & f & E & H). rewrite E. do 6 eexists. split; [reflexivity|exact H]. Qed.
Ltac use := match goal with |- rng ?e _ => let p := ev e in exact p end.
Ltac flat := cbn [fst snd vx vy vz m11 m12 m13 m21 m22 m23 m31 m32 m33 mmul mscale madd m3id vscale vadd mvmul].

(** StrapdownTest.cpp 35-79 *)
Example integrate_ok : exists n,
  (let s := snd (initialize (V3 0.739 (-1.240) 1.456) (V3 4.278 8.364 0.564) (V3 0 0 0) (1664271553028564 - 1000000) None) in
   integrate (V3 0.002 0.003 (-9.798)) (V3 0.002 0.374 0.046) 1664271553028564 s) = Ret (true, Some n) /\
  exists lla v m, pv n = Some (lla, v) /\ RB2N n = Some m /\
  isApprox (coeffs3 lla) [0.739000; -1.239998; 0.551308] (1 / 1000000) /\
  isApprox (coeffs3 v) [0.700110; 8.303278; 1.245385] (1 / 1000000) /\
  isApprox (coeffs9 m) [0.9298401; -0.0445495; 0.3652570; 0.0452886; 0.9989524; 0.0065477; -0.3651661; 0.0104537; 0.9308837] (1 / 1000000).
Proof.
  cbv zeta. unfold initialize, euler2Dcm, euler_R1, euler_R2, euler_R3. cbn [negb snd]. unfold integrate. cbn [tov].
  match goal with |- context [Z.ltb ?a int64_min] => change (Z.ltb a int64_min) with false; change (Z.ltb int64_max a) with false;
    change (IZR a) with 1000000 end.
  cbn [orb RB2N pv]. cbn [mmul vx vy vz m11 m12 m13 m21 m22 m23 m31 m32 m33].
  match goal with |- context [M3 ?a ?b ?c ?d ?e ?f ?g ?h ?i] => forget a; forget b; forget c; forget d; forget e; forget f; forget g; forget h; forget i end.
  forget (1000000 / 1000000). match goal with |- context [strapdownRk4 _ ?d] => rename d into dt end. tidy.
  match goal with |- context [updateAttitude ?A ?d] => eassert (U : holds (updateAttitude A d) (fun r => fst r = true /\ in9 (snd r) _ _ _ _ _ _ _ _ _)) end.
  { unfold updateAttitude, norm, dot, skewSymmetric. cbn [negb vx vy vz]. repeat step. split; [reflexivity|]. unfold in9. flat. repeat (lazymatch goal with |- _ /\ _ => split | _ => fail end); use. }
  apply inv9 in U. destruct U as (a1 & a2 & a3 & a4 & a5 & a6 & a7 & a8 & a9 & U & R1 & R2 & R3 & R4 & R5 & R6 & R7 & R8 & R9).
  rewrite U. cbn [bind negb]. clear U. tidy.
  eassert (G : holds (gravityNed 0.739 1.456) (fun r => fst r = true /\ rng (vx (snd r)) _ /\ rng (vy (snd r)) _ /\ rng (vz (snd r)) _)).
  { unfold gravityNed, gp_a, gp_b, gp_f, gp_wE, gp_kM, gp_gEq, gp_gPole. cbn zeta. repeat step. split; [reflexivity|]. flat. repeat (lazymatch goal with |- _ /\ _ => split | _ => fail end); use. }
  apply inv3 in G. destruct G as (g1 & g2 & g3 & G & S1 & S2 & S3). cbn [vx vy vz]. rewrite G. clear G. tidy. unfold mvmul. flat.
  match goal with |- context [V3 (?a + ?b) ?c ?d] => forget (a + b); forget c; forget d end. tidy.
  match goal with |- context [strapdownRk4 ?y ?d ?v ?g ?z] => eassert (K : holds (strapdownRk4 y d v g z) (fun r => fst r = true /\
    exists a b c d e f, snd r = [a; b; c; d; e; f] /\ (fun a b c d e f => rng a _ /\ rng b _ /\ rng c _ /\ rng d _ /\ rng e _ /\ rng f _) a b c d e f)) end.
  { unfold strapdownRk4. cbn [Nat.eqb List.length]. step. unfold rk4_step. dyn. dyn. dyn. dyn. repeat step.
    cbn [s6add s6scale snd fst vadd vscale vx vy vz]. split; [reflexivity|]. do 6 eexists. split; [reflexivity|]. repeat (lazymatch goal with |- _ /\ _ => split | _ => fail end); use. }
  apply inv6 in K. destruct K as (y1 & y2 & y3 & y4 & y5 & y6 & K & T1 & T2 & T3 & T4 & T5 & T6). rewrite K.
  eexists. split; [reflexivity|]. do 3 eexists. split; [reflexivity|]. split; [reflexivity|]. split; [approx|split; approx].
Qed.

(** CompensatorTest.cpp 17-65, 99-113 *)
Example comp_sizes c b s m : List.length m = 3%nat ->
  fst (setAccelerometerErrors b m s c) = false /\ fst (setGyroscopeErrors b m s c) = false /\
  fails (getAccelerometerErrors c b m s) /\ fails (getGyroscopeErrors c b m s).
Proof.
  intros E. unfold setAccelerometerErrors, setGyroscopeErrors, fails, getAccelerometerErrors, getGyroscopeErrors. rewrite E. repeat split; reflexivity.
Qed.
(** 68-96 and 116-144 *)
Example comp_get c b m s : List.length m = 6%nat ->
  let errb := V3 7.273 8.272 2.294 in let errs := V3 0.273 2.18 7.284 in let errm := [1.473; 8.183; 1.103; 7.183; 9.182; 3.183] in
  getAccelerometerErrors (snd (setAccelerometerErrors errb errm errs c)) b m s = Ret (true, (errb, errm, errs)) /\
  getGyroscopeErrors (snd (setGyroscopeErrors errb errm errs c)) b m s = Ret (true, (errb, errm, errs)).
Proof. intros E. cbv zeta. unfold getAccelerometerErrors, getGyroscopeErrors. rewrite E. split; reflexivity. Qed.
(** 147-179 and 182-214; the literal 00003 of the test is the integer 3. *)
Example comp_result c :
  let b := V3 0.00004 3 0.00007 in let sf := V3 1.00031 1.00046 1.00035 in
  let m := [0.00001; 0.00002; 0.00003; 0.00004; 0.00005; 0.00006] in let d := V3 7.1837 9.3832 6.2840 in
  passes (compensateAccelerometer (snd (setAccelerometerErrors b m sf c)) d) (fun r => isApprox (coeffs3 r) [7.186077; 6.386603; 6.286872] (1 / 1000000)) /\
  passes (compensateGyroscope (snd (setGyroscopeErrors b m sf c)) d) (fun r => isApprox (coeffs3 r) [7.186077; 6.386603; 6.286872] (1 / 1000000)).
Proof.
  cbv zeta. unfold passes, compensateAccelerometer, compensateGyroscope, compensateMeasurement, setAccelerometerErrors, setGyroscopeErrors.
  cbn [List.length Nat.eqb negb snd String.eqb Ascii.eqb Bool.eqb accel gyro e_b e_m e_sf value bind elem nth_error fst holds].
  unfold mvmul, mmul, vsub. flat. split; (split; [reflexivity|approx]).
Qed.
