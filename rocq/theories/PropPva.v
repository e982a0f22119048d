(** Theorems C73-C76 and C81: error dynamics of position, velocity and attitude. *)
From Coq Require Import Reals List Lra.
From Coquelicot Require Import Coquelicot.
From Verif Require Import Base BaseVec SpecRot SpecEarth SpecPva ModelGravity ModelNavUtils ModelPva ProofPva.
Import ListNotations.
Open Scope R_scope.

(** C73: the error model x' = F x + G w, for every error vector. *)
Theorem C73_inertial_error_model : forall a Ga Rm F0 G0,
  size9 F0 -> size9 G0 ->
  exists F G, inertialErrorDynamics a Ga Rm F0 G0 = (true, (F, G)) /\
  (mx_rows F = 9 /\ mx_cols F = 9 /\ mx_rows G = 9 /\ mx_cols G = 9)%nat /\
  (forall psi dv dp, mx_apply F (l9 psi dv dp) = l9 v3zero (vadd (cross a psi) (mvmul Ga dp)) dv) /\
  (forall dw df dg, mx_apply G (l9 dw df dg) = l9 (vneg (mvmul Rm dw)) (vadd (mvmul Rm df) dg) v3zero).
Proof. exact (inertial_blocks). Qed.
Print Assumptions C73_inertial_error_model.
Example C73_case : exists F G, inertialErrorDynamics (V3 1 2 3) m3id m3id (mx_zero 9 9) (mx_zero 9 9) = (true, (F, G)) /\
  mx_apply F (l9 (V3 1 0 0) (V3 0 5 0) (V3 0 0 7)) = l9 v3zero (vadd (cross (V3 1 2 3) (V3 1 0 0)) (mvmul m3id (V3 0 0 7))) (V3 0 5 0).
Proof. destruct (C73_inertial_error_model (V3 1 2 3) m3id m3id (mx_zero 9 9) (mx_zero 9 9) (conj eq_refl eq_refl) (conj eq_refl eq_refl)) as (F & G & E & _ & A & _). exists F, G. auto. Qed.

(** Outputs of another size are refused and left alone, in all three functions. *)
Theorem C73_wrong_sizes_rejected : forall a Ga Rm Om lla ld ldd F0 G0,
  ~ (size9 F0 /\ size9 G0) ->
  inertialErrorDynamics a Ga Rm F0 G0 = (false, (F0, G0)) /\
  ecefErrorDynamics a Ga Rm Om F0 G0 = (false, (F0, G0)) /\
  nedErrorDynamics a Ga Rm lla ld ldd F0 G0 = Ret (false, (F0, G0)).
Proof. exact (guards9). Qed.
Print Assumptions C73_wrong_sizes_rejected.
Example C73_sizes_case : fst (inertialErrorDynamics v3zero m3id m3id (mx_zero 9 9) (mx_zero 9 8)) = false.
Proof. reflexivity. Qed.

(** C74 *)
Theorem C74_ecef_error_model : forall a Ga Rm Om F0 G0,
  size9 F0 -> size9 G0 ->
  exists F G, ecefErrorDynamics a Ga Rm Om F0 G0 = (true, (F, G)) /\
  (mx_rows F = 9 /\ mx_cols F = 9 /\ mx_rows G = 9 /\ mx_cols G = 9)%nat /\
  (forall psi dv dp, mx_apply F (l9 psi dv dp) =
     l9 (vneg (mvmul Om psi))
        (vadd (vadd (cross a psi) (vscale (-2) (mvmul Om dv))) (vsub (mvmul Ga dp) (mvmul Om (mvmul Om dp)))) dv) /\
  (forall dw df dg, mx_apply G (l9 dw df dg) = l9 (vneg (mvmul Rm dw)) (vadd (mvmul Rm df) dg) v3zero).
Proof. exact (ecef_blocks). Qed.
Print Assumptions C74_ecef_error_model.
(** With Omega the cross-product matrix of a turn rate w, the terms above are
    - w x psi, - 2 w x dv and - w x (w x dp). *)
Theorem C74_omega_is_a_turn_rate : forall w u,
  mvmul (snd (skewSymmetric w)) u = cross w u.
Proof. exact (ecef_classic). Qed.
Print Assumptions C74_omega_is_a_turn_rate.
Example C74_case : exists F G, ecefErrorDynamics (V3 0 0 (-10)) m3id m3id (snd (skewSymmetric (V3 0 0 1))) (mx_zero 9 9) (mx_zero 9 9) = (true, (F, G)) /\
  mx_apply F (l9 v3zero (V3 3 0 0) (V3 0 4 0)) = l9 v3zero (V3 0 (4 + 4 - 6) 0) (V3 3 0 0).
Proof.
  destruct (C74_ecef_error_model (V3 0 0 (-10)) m3id m3id (snd (skewSymmetric (V3 0 0 1))) (mx_zero 9 9) (mx_zero 9 9) (conj eq_refl eq_refl) (conj eq_refl eq_refl)) as (F & G & E & _ & A & _).
  exists F, G. split; auto. rewrite A, !C74_omega_is_a_turn_rate. unfold l9, v3zero, vadd, vneg, vscale, vsub, cross, mvmul, m3id. cbn [vx vy vz m11 m12 m13 m21 m22 m23 m31 m32 m33].
  repeat (apply (f_equal2 (@cons R))); try reflexivity; ring.
Qed.

(** C75.  The navigation equations of SpecPva are Newton's law over a turning
    sphere: the inertial acceleration, less the centripetal part that apparent
    gravity contains, is specific force plus gravity. *)
Theorem C75_sphere_equations_are_newton : forall (lat lon h latD lonD hD : R -> R) (t lat2 lon2 h2 rho a1 a2 a3 g : R),
  (forall u, is_derive lat u (latD u)) -> (forall u, is_derive lon u (lonD u)) -> (forall u, is_derive h u (hD u)) ->
  is_derive latD t lat2 -> is_derive lonD t lon2 -> is_derive hD t h2 ->
  cos (lat t) <> 0 -> rho + h t <> 0 ->
  exists vel acc,
    let pos u := vscale (rho + h u) (direction (lat u) (lon u + earth_rate * u)) in
    let W := V3 0 0 earth_rate in
    let L := lon t + earth_rate * t in
    (forall u, vec_derive pos u (vel u)) /\ vec_derive vel t acc /\
    ((lat2 = lat_acc rho a1 (latD t) (lonD t) (hD t) (lat t) (h t) /\
      lon2 = lon_acc rho a2 (latD t) (lonD t) (hD t) (lat t) (h t) /\
      h2 = h_acc rho a3 (latD t) (lonD t) (lat t) (h t) g) <->
     vsub acc (cross W (cross W (pos t))) =
     vadd (vadd (vscale a1 (north_dir (lat t) L)) (vscale a2 (east_dir L))) (vscale (a3 + g) (down_dir (lat t) L))).
Proof. exact (sphere_newton). Qed.
Print Assumptions C75_sphere_equations_are_newton.
Example C75_newton_case : cos 0 <> 0 /\ 6400000 + 0 <> 0 /\ (forall u : R, is_derive (fun _ : R => 0) u 0).
Proof. rewrite cos_0. split; [lra|]. split; [lra|]. intros u. apply (is_derive_const (V := R_NormedModule) 0 u). Qed.

(** F x is the derivative, along the error x, of the turn rate (with - w x psi)
    and of the second derivatives of latitude, longitude and height; the
    longitude row misses the term shown. *)
Theorem C75_jacobian_but_for_one_entry : forall aN GN RS lla ld ldd F0 G0 F G psi dd dp,
  nedErrorDynamics aN GN RS lla ld ldd F0 G0 = Ret (true, (F, G)) ->
  let lat := vx lla in let h := vz lla in let rho := radius_G lat in
  let Dot := fun t => vadd ld (vscale t dd) in
  let Pos := fun t => vadd lla (vscale t dp) in
  let acc := fun t => vadd aN (vscale t (cross aN psi)) in
  vx ldd = lat_acc rho (vx aN) (vx ld) (vy ld) (vz ld) lat h ->
  vy ldd = lon_acc rho (vy aN) (vx ld) (vy ld) (vz ld) lat h ->
  exists u v, mx_apply F (l9 psi dd dp) = l9 u v dd /\
    (exists dw, vec_derive (fun t => w_in (vx (Dot t)) (vy (Dot t)) (vx (Pos t))) 0 dw /\
       u = vadd (vneg (cross (w_in (vx ld) (vy ld) lat) psi)) dw) /\
    is_derive (fun t => lat_acc rho (vx (acc t)) (vx (Dot t)) (vy (Dot t)) (vz (Dot t)) (vx (Pos t)) (vz (Pos t))) 0 (vx v) /\
    is_derive (fun t => lon_acc rho (vy (acc t)) (vx (Dot t)) (vy (Dot t)) (vz (Dot t)) (vx (Pos t)) (vz (Pos t))) 0
      (vy v + 2 * (vy ld + earth_rate - 1) * vx ld * tan lat / (rho + h) * vz dp) /\
    (forall g, is_derive g h (- m33 GN) ->
       is_derive (fun t => h_acc rho (vz (acc t)) (vx (Dot t)) (vy (Dot t)) (vx (Pos t)) (vz (Pos t)) (g (vz (Pos t)))) 0 (vz v)).
Proof. exact (ned_jacobian). Qed.
Print Assumptions C75_jacobian_but_for_one_entry.
(** As stated, for the longitude row, the claim is false. *)
Theorem C75_longitude_row_refuted : exists aN GN RS lla ld ldd F0 G0 F G psi dd dp,
  nedErrorDynamics aN GN RS lla ld ldd F0 G0 = Ret (true, (F, G)) /\
  vx ldd = lat_acc (radius_G (vx lla)) (vx aN) (vx ld) (vy ld) (vz ld) (vx lla) (vz lla) /\
  vy ldd = lon_acc (radius_G (vx lla)) (vy aN) (vx ld) (vy ld) (vz ld) (vx lla) (vz lla) /\
  ~ is_derive (fun t => lon_acc (radius_G (vx lla)) (vy aN + t * vy (cross aN psi)) (vx ld + t * vx dd) (vy ld + t * vy dd)
                 (vz ld + t * vz dd) (vx lla + t * vx dp) (vz lla + t * vz dp)) 0
      (nth 4 (mx_apply F (l9 psi dd dp)) 0).
Proof. exact (ned_lon_refuted). Qed.
Print Assumptions C75_longitude_row_refuted.
(** C76 *)
Theorem C76_forcing : forall aN GN RS lla ld ldd F0 G0 F G dw df dg,
  nedErrorDynamics aN GN RS lla ld ldd F0 G0 = Ret (true, (F, G)) ->
  exists v, mx_apply G (l9 dw df dg) = l9 (vneg (mvmul RS dw)) v v3zero /\
    let q := vadd (mvmul RS df) dg in
    (radius_M (vx lla) + vz lla) * vx v = vx q /\
    (radius_N (vx lla) + vz lla) * cos (vx lla) * vy v = vy q /\ - vz v = vz q.
Proof. exact (ned_forcing). Qed.
Print Assumptions C76_forcing.
(** Neither longitude, nor entries of the gravity gradient other than (3,3), nor
    the third second derivative matter. *)
Theorem C76_independence : forall aN GN GN' RS lat lon lon' h ld ldd ldd' F0 G0,
  m33 GN = m33 GN' -> vx ldd = vx ldd' -> vy ldd = vy ldd' ->
  nedErrorDynamics aN GN RS (V3 lat lon h) ld ldd F0 G0 = nedErrorDynamics aN GN' RS (V3 lat lon' h) ld ldd' F0 G0.
Proof. exact (ned_independent). Qed.
Print Assumptions C76_independence.
(** Defined exactly off the poles and away from three depths; everywhere of
    practical interest. *)
Theorem C76_definedness : forall aN GN RS lla ld ldd F0 G0,
  size9 F0 -> size9 G0 ->
  ((exists F G, nedErrorDynamics aN GN RS lla ld ldd F0 G0 = Ret (true, (F, G))) <-> ned_regular (vx lla) (vz lla)) /\
  (~ ned_regular (vx lla) (vz lla) <-> nedErrorDynamics aN GN RS lla ld ldd F0 G0 = NonFinite).
Proof. exact (ned_defined). Qed.
Print Assumptions C76_definedness.
Theorem C76_defined_near_the_surface : forall lat h,
  Rabs lat < PI/2 -> -6300000 < h -> ned_regular lat h.
Proof. exact (ned_regular_surface). Qed.
Print Assumptions C76_defined_near_the_surface.
Lemma ned_case : exists F G, nedErrorDynamics (V3 1 2 (-10)) m3id m3id (V3 (1/2) 1 100) (V3 1 2 3) v3zero (mx_zero 9 9) (mx_zero 9 9) = Ret (true, (F, G)).
Proof.
  apply C76_definedness; try (split; reflexivity). apply C76_defined_near_the_surface; cbn [vx vz]; [|lra].
  rewrite Rabs_pos_eq by lra. pose proof PI2_1. lra.
Qed.
Example C76_case : exists F G v, nedErrorDynamics (V3 1 2 (-10)) m3id m3id (V3 (1/2) 1 100) (V3 1 2 3) v3zero (mx_zero 9 9) (mx_zero 9 9) = Ret (true, (F, G)) /\
  mx_apply G (l9 v3zero v3zero (V3 5 6 7)) = l9 (vneg (mvmul m3id v3zero)) v v3zero /\ vz v = -7.
Proof.
  destruct ned_case as (F & G & E). destruct (C76_forcing _ _ _ _ _ _ _ _ _ _ v3zero v3zero (V3 5 6 7) E) as (v & A & _ & _ & B).
  exists F, G, v. split; auto. split; auto. cbn in B. lra.
Qed.
Example C76_pole : nedErrorDynamics (V3 1 2 (-10)) m3id m3id (V3 (PI/2) 1 100) (V3 1 2 3) v3zero (mx_zero 9 9) (mx_zero 9 9) = NonFinite.
Proof. apply C76_definedness; try (split; reflexivity). intros (H & _). apply H. apply cos_PI2. Qed.
Example C75_case : exists F G u v, nedErrorDynamics v3zero m3id m3id (V3 0 1 100) v3zero v3zero (mx_zero 9 9) (mx_zero 9 9) = Ret (true, (F, G)) /\
  mx_apply F (l9 (V3 0 1 0) v3zero v3zero) = l9 u v v3zero.
Proof.
  destruct (proj1 (C76_definedness v3zero m3id m3id (V3 0 1 100) v3zero v3zero (mx_zero 9 9) (mx_zero 9 9) (conj eq_refl eq_refl) (conj eq_refl eq_refl))) as [_ H].
  destruct H as (F & G & E). { apply C76_defined_near_the_surface; cbn [vx vz]; [|lra]. rewrite Rabs_R0. pose proof PI_RGT_0. lra. }
  destruct (C75_jacobian_but_for_one_entry _ _ _ _ _ _ _ _ _ _ (V3 0 1 0) v3zero v3zero E) as (u & v & A & _).
  { unfold lat_acc, v3zero. cbn [vx vy vz]. rewrite sin_0. unfold Rdiv. ring. }
  { unfold lon_acc, v3zero. cbn [vx vy vz]. unfold Rdiv. ring. }
  exists F, G, u, v. auto.
Qed.

(** C81: an acceleration error that comes from the attitude and the same error
    from the accelerometer must have the same effect.  They do not: F divides by
    the Gauss radius, G by the meridian and prime vertical radii. *)
Theorem C81_acceleration_error_two_ways_refuted : forall aN GN RS lla ld ldd F0 G0 F G psi df,
  nedErrorDynamics aN GN RS lla ld ldd F0 G0 = Ret (true, (F, G)) -> mvmul RS df = cross aN psi ->
  exists u w v v', mx_apply F (l9 psi v3zero v3zero) = l9 u v v3zero /\
    mx_apply G (l9 v3zero df v3zero) = l9 w v' v3zero /\
    (radius_G (vx lla) + vz lla) * vx v = (radius_M (vx lla) + vz lla) * vx v' /\
    (radius_G (vx lla) + vz lla) * vy v = (radius_N (vx lla) + vz lla) * vy v' /\
    vz v = vz v' /\
    (vx (cross aN psi) <> 0 -> vx v <> vx v') /\ (vy (cross aN psi) <> 0 -> vy v <> vy v').
Proof. exact (ned_two_ways). Qed.
Print Assumptions C81_acceleration_error_two_ways_refuted.
Example C81_case : exists F G u w v v', nedErrorDynamics (V3 1 2 (-10)) m3id m3id (V3 (1/2) 1 100) (V3 1 2 3) v3zero (mx_zero 9 9) (mx_zero 9 9) = Ret (true, (F, G)) /\
  mx_apply F (l9 (V3 0 1 0) v3zero v3zero) = l9 u v v3zero /\
  mx_apply G (l9 v3zero (cross (V3 1 2 (-10)) (V3 0 1 0)) v3zero) = l9 w v' v3zero /\ vx v <> vx v'.
Proof.
  destruct ned_case as (F & G & E).
  destruct (C81_acceleration_error_two_ways_refuted _ _ _ _ _ _ _ _ _ _ (V3 0 1 0) (cross (V3 1 2 (-10)) (V3 0 1 0)) E) as (u & w & v & v' & A & B & _ & _ & _ & N & _).
  { unfold mvmul, cross, m3id. cbn [vx vy vz m11 m12 m13 m21 m22 m23 m31 m32 m33]. f_equal; ring. }
  exists F, G, u, w, v, v'. repeat (split; auto). apply N. cbn. lra.
Qed.
