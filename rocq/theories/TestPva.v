(** The unit tests of /repo/test/PvaErrorDynamicsTest.cpp and the coarse alignment
    test of InitializationTest.cpp, proved of the models. *)
From Coq Require Import Reals List Lra.
From Verif Require Import Base BaseVec CheckNum TestBase ModelGravity ModelNavUtils ModelPva ModelCoarse.
Import ListNotations.
Open Scope R_scope.

Definition coeffs81 (A : MatrixXd) : list R := flat_map (fun i => map (mx_at A i) (seq 0 9)) (seq 0 9).
Definition approx99 (A : MatrixXd) (l : list R) : Prop := mx_rows A = 9%nat /\ mx_cols A = 9%nat /\ isApprox (coeffs81 A) l (1 / 1000000).
Definition bad (A : MatrixXd) : Prop := (mx_rows A = 8%nat /\ mx_cols A = 9%nat) \/ (mx_rows A = 9%nat /\ mx_cols A = 8%nat).
Definition good (A : MatrixXd) : Prop := mx_rows A = 9%nat /\ mx_cols A = 9%nat.
(** 16-62, 114-162, 228-280; the values do not matter. *)
Example pva_sizes a GI RS O lla d dd F G : (bad F /\ good G) \/ (good F /\ bad G) ->
  fst (inertialErrorDynamics a GI RS F G) = false /\ fst (ecefErrorDynamics a GI RS O F G) = false /\
  fails (nedErrorDynamics a GI RS lla d dd F G).
Proof.
  unfold bad, good, fails, inertialErrorDynamics, ecefErrorDynamics, nedErrorDynamics, is9x9.
  intros [([(A & B)|(A & B)] & C & D)|((A & B) & [(C & D)|(C & D)])]; rewrite A, B, C, D; cbn; auto.
Qed.
Ltac entries81 := unfold approx99; split; [reflexivity|]; split; [reflexivity|]; unfold coeffs81;
  cbn [seq flat_map map app mx_zero set_block mx_of_rows MX_of_mat3 mx_at mx_rows mx_cols Nat.leb Nat.ltb Nat.add Nat.sub andb nth
       mneg msub mmul mscale m3id m11 m12 m13 m21 m22 m23 m31 m32 m33 skewSymmetric fst snd vx vy vz].
Ltac sized := unfold is9x9; match goal with H : good ?F, K : good ?G |- _ => destruct H as (-> & ->); destruct K as (-> & ->) end.
(** 65-111 *)
Example inertial_result F G : good F -> good G ->
  let r := inertialErrorDynamics (V3 0.362 0.474 0.367) (M3 0.284 0.001 0.012 0.028 0.274 0.008 0.001 0.003 0.736) m3id F G in
  fst r = true /\
  approx99 (fst (snd r)) [0; 0; 0; 0; 0; 0; 0; 0; 0;
    0; 0; 0; 0; 0; 0; 0; 0; 0;
    0; 0; 0; 0; 0; 0; 0; 0; 0;
    0; -0.367; 0.474; 0; 0; 0; 0.284; 0.001; 0.012;
    0.367; 0; -0.362; 0; 0; 0; 0.028; 0.274; 0.008;
    -0.474; 0.362; 0; 0; 0; 0; 0.001; 0.003; 0.736;
    0; 0; 0; 1; 0; 0; 0; 0; 0;
    0; 0; 0; 0; 1; 0; 0; 0; 0;
    0; 0; 0; 0; 0; 1; 0; 0; 0] /\
  approx99 (snd (snd r)) [-1; 0; 0; 0; 0; 0; 0; 0; 0;
    0; -1; 0; 0; 0; 0; 0; 0; 0;
    0; 0; -1; 0; 0; 0; 0; 0; 0;
    0; 0; 0; 1; 0; 0; 1; 0; 0;
    0; 0; 0; 0; 1; 0; 0; 1; 0;
    0; 0; 0; 0; 0; 1; 0; 0; 1;
    0; 0; 0; 0; 0; 0; 0; 0; 0;
    0; 0; 0; 0; 0; 0; 0; 0; 0;
    0; 0; 0; 0; 0; 0; 0; 0; 0].
Proof.
  intros HF HG. cbv zeta. unfold inertialErrorDynamics. sized. cbn [Nat.eqb andb negb skewSymmetric fst snd vx vy vz].
  split; [reflexivity|]. split; entries81; approx.
Qed.
(** 165-225 *)
Example ecef_result F G : good F -> good G ->
  let r := ecefErrorDynamics (V3 0.362 0.474 0.367) (M3 0.284 0.001 0.012 0.028 0.274 0.008 0.001 0.003 0.736) m3id
    (M3 0 (-0.273) 0.163 0.273 0 (-0.573) (-0.163) 0.573 0) F G in
  fst r = true /\
  approx99 (fst (snd r)) [0; 0.273; -0.163; 0; 0; 0; 0; 0; 0;
    -0.273; 0; 0.573; 0; 0; 0; 0; 0; 0;
    0.163; -0.573; 0; 0; 0; 0; 0; 0; 0;
    0; -0.367; 0.474; 0; 0.546; -0.326; 0.385098; -0.092399; -0.144429;
    0.367; 0; -0.362; -0.546; 0; 1.146; -0.065399; 0.676858; -0.036499;
    -0.474; 0.362; 0; 0.326; -1.146; 0; -0.155429; -0.041499; 1.090898;
    0; 0; 0; 1; 0; 0; 0; 0; 0;
    0; 0; 0; 0; 1; 0; 0; 0; 0;
    0; 0; 0; 0; 0; 1; 0; 0; 0] /\
  approx99 (snd (snd r)) [-1; 0; 0; 0; 0; 0; 0; 0; 0;
    0; -1; 0; 0; 0; 0; 0; 0; 0;
    0; 0; -1; 0; 0; 0; 0; 0; 0;
    0; 0; 0; 1; 0; 0; 1; 0; 0;
    0; 0; 0; 0; 1; 0; 0; 1; 0;
    0; 0; 0; 0; 0; 1; 0; 0; 1;
    0; 0; 0; 0; 0; 0; 0; 0; 0;
    0; 0; 0; 0; 0; 0; 0; 0; 0;
    0; 0; 0; 0; 0; 0; 0; 0; 0].
Proof.
  intros HF HG. cbv zeta. unfold ecefErrorDynamics. sized. cbn [Nat.eqb andb negb skewSymmetric fst snd vx vy vz].
  split; [reflexivity|]. split; entries81; approx.
Qed.
(** 283-333 *)
Example ned_result F G : good F -> good G ->
  passes (nedErrorDynamics (V3 0.362 0.474 0.367) (M3 0.284 0.001 0.012 0.028 0.274 0.008 0.001 0.003 0.736) m3id
    (V3 0.731 (-1.240) 4.364) (V3 0.002 0.017 0.001) (V3 0.012 0.004 0.005) F G) (fun r =>
  approx99 (fst r) [0; -0.011398; 0.002; 0; 0.744507; 0; -0.011398; 0; 0;
    0.011398; 0; 0.012711; -1; 0; 0; 0; 0; 0;
    -0.002; -0.012711; 0; 0; -0.667614; 0; -0.012711; 0; 0;
    0; -5.77e-08; 7.43e-08; -1.37e-06; -0.016972; -6.27e-10; -3.16494e-05; 0; -1.89e-09;
    7.75e-08; 0; -7.63e-08; 0.030619; 0.003587; -5.36e-09; 0.003655; 0; -6.18e-10;
    0.474; -0.362; 0; 25503.121498; 120672.674050; 0; -1847.420312; 0; 0.736166;
    0; 0; 0; 1; 0; 0; 0; 0; 0;
    0; 0; 0; 0; 1; 0; 0; 0; 0;
    0; 0; 0; 0; 0; 1; 0; 0; 0] /\
  approx99 (snd r) [-1; 0; 0; 0; 0; 0; 0; 0; 0;
    0; -1; 0; 0; 0; 0; 0; 0; 0;
    0; 0; -1; 0; 0; 0; 0; 0; 0;
    0; 0; 0; 1.57e-07; 0; 0; 1.57e-07; 0; 0;
    0; 0; 0; 0; 2.10e-07; 0; 0; 2.10e-07; 0;
    0; 0; 0; 0; 0; -1; 0; 0; -1;
    0; 0; 0; 0; 0; 0; 0; 0; 0;
    0; 0; 0; 0; 0; 0; 0; 0; 0;
    0; 0; 0; 0; 0; 0; 0; 0; 0]).
Proof.
  intros HF HG. unfold passes, nedErrorDynamics, tanc, gp_wE, gp_f, gp_a, minvc. sized. cbn [Nat.eqb andb negb fst snd vx vy vz]. cbv zeta.
  repeat lazymatch goal with |- holds (Rdivc _ (mdet _)) _ => fail | |- holds (Ret _) _ => fail | _ => step end.
  unfold mdet. cbn [m11 m12 m13 m21 m22 m23 m31 m32 m33]. repeat step.
  split; [reflexivity|]. cbn [snd fst]. unfold madj. split; entries81; approx.
Qed.
(** InitializationTest.cpp 15-43 *)
Example coarse_result : passes (coarseAttitudeAlignment 0.7361 (7.292115 * 1e-5) (-9.798) (V3 0.00001 0.00002 0.00003) (V3 0.0002 0.0092 0.0034))
  (fun r => isApprox (coeffs9 r) [3.70087216369588; 170.240078845804; 62.914813837855;
     -0.000392825687754338; -0.0000528803810438532; 0.000166195483280682;
      0.000001020616452337; 0.0000020412329046744; 0.0000030618493570] (1 / 1000000)).
Proof.
  unfold passes, coarseAttitudeAlignment, minvc, mdet, cross, vneg. cbn [vx vy vz m11 m12 m13 m21 m22 m23 m31 m32 m33]. cbv zeta.
  repeat step. split; [reflexivity|]. unfold mmul, mscale, madj. cbn [snd m11 m12 m13 m21 m22 m23 m31 m32 m33]. approx.
Qed.
