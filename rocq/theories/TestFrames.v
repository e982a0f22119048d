(** The unit tests of /repo/test/RotationsTest.cpp on geodetic positions and
    calendar dates, proved of the models. *)
From Coq Require Import Reals ZArith List Lra.
From Verif Require Import Base BaseVec CheckNum TestBase ModelGravity ModelFrames ModelDate.
Import ListNotations.
Open Scope R_scope.

(** 16-49, 76-109, 159-194 *)
Example ned_range M : fst (computeREcef2Ned 1.6 0 M) = false /\ fst (computeREcef2Ned 0 3.5 M) = false
  /\ fst (computeRNed2Ecef 1.6 0 M) = false /\ fst (computeRNed2Ecef 0 3.5 M) = false.
Proof. unfold computeREcef2Ned, computeRNed2Ecef. guards. auto. Qed.
Example lla_range r : fails (lla2Ecef 1.6 0 0 r) /\ fails (lla2Ecef 0 3.5 0 r).
Proof. unfold fails, lla2Ecef. guards. split; reflexivity. Qed.
(** 52-73 *)
Example ned_result M : fst (computeREcef2Ned 0.731 (-1.240) M) = true /\
  isApprox (coeffs9 (snd (computeREcef2Ned 0.731 (-1.240) M)))
    [-0.2168387; 0.6314191; 0.7445072; 0.9457839; 0.3247963; 0; -0.2418132; 0.7041429; -0.6676145] (1 / 1000000).
Proof. unfold computeREcef2Ned. guards. split; [reflexivity|]. cbn zeta. cbn [snd]. approx. Qed.
(** 112-133 *)
Example ecef_result M : fst (computeRNed2Ecef 0.731 (-1.240) M) = true /\
  isApprox (coeffs9 (snd (computeRNed2Ecef 0.731 (-1.240) M)))
    [-0.2168387; 0.9457839; -0.2418132; 0.6314191; 0.3247963; 0.7041429; 0.7445072; 0; -0.6676145] (1 / 1000000).
Proof. unfold computeRNed2Ecef. guards. split; [reflexivity|]. cbn zeta. cbn [snd]. approx. Qed.
(** 136-161 *)
Example geodetic : passes (ecef2Lla (V3 1545471.693 (-4488375.702) 4245603.836))
  (fun r => isApprox [fst (fst r); snd (fst r); snd r] [0.733038; -1.239184; -0.000753] (1 / 10000)).
Proof.
  unfold passes, ecef2Lla, ecef2Lla_with, gp_a, gp_b, gp_f. cbn zeta. cbn [vx vy vz]. do 6 step. repeat angle.
  repeat match goal with |- context [atan ?x] => forget (atan x) end.
  repeat step. split; [reflexivity|]. approx.
Qed.
(** 197-219 *)
Example lla_result r : passes (lla2Ecef 0.731 (-1.24) 0 r)
  (fun r => isApprox (coeffs3 r) [1544623.562624; -4497835.476247; 4235955.233997] (1 / 1000000)).
Proof. unfold passes, lla2Ecef, gp_a, gp_f. guards. cbn zeta. repeat step. split; [reflexivity|]. approx. Qed.
(** 692-711 *)
Example date_result : unixTimestampToDateVec 1672860613000000 [] = Ret (true, [2023; 1; 4; 19; 30; 13]).
Proof.
  unfold unixTimestampToDateVec.
  assert (E : dateFields (unixSeconds 1672860613000000) = Ret [2023; 1; 4; 19; 30; 13]%Z) by (vm_compute; reflexivity).
  rewrite E. reflexivity.
Qed.
