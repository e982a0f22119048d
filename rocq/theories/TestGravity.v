(** The unit tests of /repo/test/GravityTest.cpp and NavUtilsTest.cpp, proved of
    the models. *)
From Coq Require Import Reals List Lra.
From Verif Require Import Base BaseVec CheckNum TestBase ModelGravity ModelNavUtils.
Import ListNotations.
Open Scope R_scope.

(** GravityTest.cpp 16-38 *)
Example simple_gravity : passes (simpleGravity (V3 3682340.016 3682136.045 3682726.345))
  (fun r => isApprox (coeffs3 r) [-5.656592; -5.656278; -5.657185] (1 / 1000000)).
Proof.
  unfold passes, simpleGravity, norm, dot, gp_G, gp_mE. cbn [vx vy vz]. repeat step. split; [reflexivity|]. cbn [snd vscale]. approx.
Qed.
(** GravityTest.cpp 41-63 *)
Example gravity_ned : passes (gravityNed 0.7505 345.293)
  (fun r => isApprox (coeffs3 r) [-0.000003; 0; 9.80332] (1 / 1000000)).
Proof.
  unfold passes, gravityNed, gp_a, gp_b, gp_f, gp_wE, gp_kM, gp_gEq, gp_gPole. cbn zeta. repeat step. split; [reflexivity|]. cbn [snd]. approx.
Qed.
(** NavUtilsTest.cpp 16-39 *)
Example skew : fst (skewSymmetric (V3 1 2 3)) = true /\
  isApprox (coeffs9 (snd (skewSymmetric (V3 1 2 3)))) [0; -3; 2; 3; 0; -1; -2; 1; 0] (1 / 1000000).
Proof. split; [reflexivity|]. unfold skewSymmetric. cbn [snd vx vy vz]. approx. Qed.
(** NavUtilsTest.cpp 42-77; the contents of the vectors do not matter. *)
Example rk4_size gN dVN ykm1 yk : length ykm1 = 5%nat \/ length yk = 5%nat -> fails (strapdownRk4 ykm1 10 dVN gN yk).
Proof.
  intros [E|E].
  - do 5 (destruct ykm1 as [|? ykm1]; [discriminate|]). destruct ykm1; [reflexivity|discriminate].
  - do 6 (destruct ykm1 as [|? ykm1]; [reflexivity|]). destruct ykm1; [|reflexivity]. cbn. rewrite E. reflexivity.
Qed.
(** One evaluation of the dynamics. *)
Ltac entries := match goal with |- holds (Ret (V3 ?a ?b ?c, V3 ?d ?e ?f)) _ => forget a; forget b; forget c; forget d; forget e; forget f end; tidy.
Ltac dyn := apply holds_bind; unfold strapdownDynamics at 1, gp_wE, gp_a, gp_f;
  cbn beta iota zeta delta [s6add s6scale vadd vscale fst snd vx vy vz];
  repeat lazymatch goal with |- holds (Ret _) _ => fail | _ => step end; entries; apply holds_ret; cbn beta zeta.
(** NavUtilsTest.cpp 80-107 *)
Example rk4_result yk : length yk = 6%nat ->
  passes (strapdownRk4 [0.739; -1.240; 12.019; 2.928; 1.472; 0.005] 10 (V3 0.002 0.274 0.162) (V3 0.072 0.013 9.798) yk)
    (fun r => isApprox r [0.739005; -1.239996; -478.732187; 3.648595; 1.932334; 98.145153] (1 / 1000000)).
Proof.
  intros E. unfold passes, strapdownRk4. rewrite E. cbn [Nat.eqb]. step. unfold rk4_step.
  dyn. dyn. dyn. dyn. repeat step. cbn [s6add s6scale snd fst vadd vscale vx vy vz]. split; [reflexivity|]. approx.
Qed.
