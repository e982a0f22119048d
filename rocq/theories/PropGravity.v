(** Theorems C17-C20: gravity models (src/util/Gravity.cpp). *)
From Coq Require Import Reals List Lra Lia.
From Verif Require Import Base BaseVec SpecRot SpecEarth ModelGravity ProofVec ProofGravity.
Open Scope R_scope.

(** C17.  398571280000000 = 6.674e-11 * 5.972e24. *)
Theorem C17_simple_gravity_inverse_square : forall r, r <> v3zero ->
  exists g k, simpleGravity r = Ret (true, g) /\ 0 < k /\ g = vscale (- k) r /\
    norm g * dot r r = 398571280000000.
Proof. exact simple_gravity_field. Qed.
Print Assumptions C17_simple_gravity_inverse_square.
Theorem C17_simple_gravity_scaling : forall k r, 0 < k -> r <> v3zero ->
  exists g, simpleGravity r = Ret (true, g) /\
    simpleGravity (vscale k r) = Ret (true, vscale (/ (k * k)) g).
Proof. exact simple_gravity_scale. Qed.
Print Assumptions C17_simple_gravity_scaling.
Theorem C17_simple_gravity_rotation : forall A r, is_rotation A -> r <> v3zero ->
  exists g, simpleGravity r = Ret (true, g) /\ simpleGravity (mvmul A r) = Ret (true, mvmul A g).
Proof. exact simple_gravity_rotation. Qed.
Print Assumptions C17_simple_gravity_rotation.
Theorem C17_simple_gravity_origin : simpleGravity v3zero = NonFinite.
Proof. exact simple_gravity_origin. Qed.
Print Assumptions C17_simple_gravity_origin.
Example C17_case : exists g, simpleGravity (V3 3 (-4) 0) = Ret (true, g) /\ norm g * 25 = 398571280000000.
Proof.
  destruct (C17_simple_gravity_inverse_square (V3 3 (-4) 0)) as (g & k & H & _ & _ & E).
  - intros E; injection E; lra.
  - exists g. split; auto. rewrite <- E. f_equal. unfold dot; cbn; ring.
Qed.
Example C17_case_rotation : is_rotation (M3 0 1 0 (-1) 0 0 0 0 1) /\ V3 3 (-4) 0 <> v3zero.
Proof.
  split; [|intros E; injection E; lra]. apply rotation_of_matrix; vec_ring.
Qed.

(** C18 *)
Theorem C18_gravity_bounds_on_ellipsoid : forall lat, exists g,
  gravityNed lat 0 = Ret (true, V3 0 0 g) /\ 97803267715 / 10000000000 <= g <= 98321863685 / 10000000000.
Proof. exact gravity_bounds. Qed.
Print Assumptions C18_gravity_bounds_on_ellipsoid.
Theorem C18_gravity_at_equator_and_poles :
  gravityNed 0 0 = Ret (true, V3 0 0 (97803267715 / 10000000000)) /\
  gravityNed (PI/2) 0 = Ret (true, V3 0 0 (98321863685 / 10000000000)) /\
  gravityNed (-(PI/2)) 0 = Ret (true, V3 0 0 (98321863685 / 10000000000)).
Proof. exact gravity_extremes. Qed.
Print Assumptions C18_gravity_at_equator_and_poles.
Theorem C18_gravity_increases_with_latitude : forall l1 l2, 0 <= l1 -> l1 < l2 -> l2 <= PI/2 ->
  down (gravityNed l1 0) < down (gravityNed l2 0) /\
  down (gravityNed (- l1) 0) < down (gravityNed (- l2) 0).
Proof. exact gravity_monotone. Qed.
Print Assumptions C18_gravity_increases_with_latitude.
Example C18_case : down (gravityNed (1/2) 0) < down (gravityNed 1 0).
Proof. apply C18_gravity_increases_with_latitude; pose proof PI_RGT_0; pose proof PI2_1; lra. Qed.

(** C19 *)
Theorem C19_gravity_parity : forall lat h, exists gn gd,
  gravityNed lat h = Ret (true, V3 gn 0 gd) /\ gravityNed (- lat) h = Ret (true, V3 (- gn) 0 gd).
Proof. exact gravity_symmetry. Qed.
Print Assumptions C19_gravity_parity.
Theorem C19_gravity_north_zero : forall lat h,
  h = 0 \/ lat = 0 \/ lat = PI/2 \/ lat = -(PI/2) -> north (gravityNed lat h) = 0.
Proof. exact gravity_north_zero. Qed.
Print Assumptions C19_gravity_north_zero.
Theorem C19_gravity_north_towards_equator : forall lat h, 0 < h ->
  (0 < lat < PI/2 -> north (gravityNed lat h) < 0) /\
  (-(PI/2) < lat < 0 -> 0 < north (gravityNed lat h)).
Proof. exact gravity_north_sign. Qed.
Print Assumptions C19_gravity_north_towards_equator.
(** The size of the deflection: 8.08e-9 (m/s^2)/m times h sin(2 lat). *)
Theorem C19_gravity_north_value : forall lat h,
  north (gravityNed lat h) = - (808 / 100000000000) * h * sin (2 * lat).
Proof. exact gravity_north_value. Qed.
Print Assumptions C19_gravity_north_value.
Example C19_case : north (gravityNed (1/2) 1000) < 0 /\ 0 < north (gravityNed (-(1/2)) 1000).
Proof.
  pose proof PI2_1. split; apply C19_gravity_north_towards_equator; lra.
Qed.

(** C20 *)
Theorem C20_gravity_down_positive : forall lat h, 0 < down (gravityNed lat h).
Proof. exact gravity_positive. Qed.
Print Assumptions C20_gravity_down_positive.
Theorem C20_gravity_decreases_with_height : forall lat h1 h2, 0 <= h1 -> h1 < h2 -> h2 <= 2100000 ->
  down (gravityNed lat h2) < down (gravityNed lat h1).
Proof. exact gravity_decreasing. Qed.
Print Assumptions C20_gravity_decreases_with_height.
(** The free-air factor at the equator, with m = w^2 a^2 b / GM spelled out. *)
Theorem C20_gravity_equator_profile : forall h,
  down (gravityNed 0 h) =
  97803267715/10000000000 *
  (1 - 2 * (1 + 1/(298257222101/1000000000)
     + (7292115/100000000000 * (7292115/100000000000)) * (6378137 * 6378137) * (63567523141/10000) / 398600500000000)
     * (h / 6378137) + 3 * (h / 6378137) * (h / 6378137)).
Proof. exact gravity_equator_profile. Qed.
Print Assumptions C20_gravity_equator_profile.
Example C20_case : down (gravityNed 1 2000000) < down (gravityNed 1 1000).
Proof. apply C20_gravity_decreases_with_height; lra. Qed.
