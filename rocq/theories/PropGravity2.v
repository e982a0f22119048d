(** Theorems C96-C98: the gradient of the gravity field and its constants. *)
From Coq Require Import Reals Lra.
From Coquelicot Require Import Coquelicot.
From Verif Require Import Base BaseVec SpecEarth SpecPva ModelGravity ProofVec ProofGravity ProofGravity2.
Open Scope R_scope.

(** C96: Bruns' formula for the vertical gradient of normal gravity on the
    ellipsoid, -g (1/M + 1/N) - 2 w^2, to one part in ten thousand. *)
Theorem C96_vertical_gradient : forall lat, exists d, is_derive (fun h => down (gravityNed lat h)) 0 d /\
  let b := - (down (gravityNed lat 0) * (1 / radius_M lat + 1 / radius_N lat) + 2 * earth_rate^2) in
  Rabs (d - b) <= 1/10000 * Rabs b.
Proof. exact bruns. Qed.
Print Assumptions C96_vertical_gradient.
(** At the pole, where M = N, the gradient is about -3.08e-6 per second squared. *)
Example C96_case : exists d, is_derive (fun h => down (gravityNed (PI/2) h)) 0 d /\ -0.00000309 < d < -0.00000307.
Proof.
  eexists. split; [apply down_derive_h|]. rewrite sin_PI2, Rmult_1_l, g_ell_1. unfold g_m, gp_gPole, gp_a, gp_f, gp_wE, gp_b, gp_kM. lra.
Qed.

(** C97: the field is irrotational near the ellipsoid, to one percent of the
    north component: d(north)/dh = -(1/M) d(down)/dlat at h = 0. *)
Theorem C97_north_component_irrotational : forall lat, exists dN dG,
  is_derive (fun h => north (gravityNed lat h)) 0 dN /\ is_derive (fun l => down (gravityNed l 0)) lat dG /\
  Rabs (dN + dG / radius_M lat) <= 1/100 * Rabs dN.
Proof. exact curl. Qed.
Print Assumptions C97_north_component_irrotational.
(** At 45 degrees the north component changes by -8.08e-9 per second squared. *)
Example C97_case : is_derive (fun h => north (gravityNed (PI/4) h)) 0 (- (808/100) * (1/1000000) * (1/1000)).
Proof.
  replace (- (808/100) * (1/1000000) * (1/1000)) with (- (808/100) * (1/1000000) * (1/1000) * sin (2 * (PI/4))); [apply north_derive_h|].
  replace (2 * (PI/4)) with (PI/2) by field. rewrite sin_PI2. ring.
Qed.

(** C98: gravity at the equator and the pole fits the ellipsoid, the Earth's
    mass and its rotation. *)
Theorem C98_pizzetti_and_clairaut :
  let ge := down (gravityNed 0 0) in let gp := down (gravityNed (PI/2) 0) in
  let GM := 398600500000000 in
  Rabs (2 * ge / earth_a + gp / earth_b - (3 * GM / (earth_a^2 * earth_b) - 2 * earth_rate^2)) <= 1/10^8 * (gp / earth_b) /\
  Rabs ((gp - ge) / ge + earth_f - 5/2 * (earth_rate^2 * earth_a / ge)) <= 1/100 * ((gp - ge) / ge).
Proof. exact pizzetti. Qed.
Print Assumptions C98_pizzetti_and_clairaut.
