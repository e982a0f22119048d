(** Theorems C99-C102: geometry of the J2000-to-Earth-fixed rotation. *)
From Coq Require Import Reals ZArith List String Lra Lia.
From Coquelicot Require Import Coquelicot.
From Verif Require Import Base BaseVec SpecRot SpecEarth SpecEop ModelDate ModelEop ModelJ2k SpecJ2k ProofVec ProofEop ProofJ2k ProofJ2k2 PropEop PropJ2k SpecCalendar ProofDate ProofMjd PropDate.
Import ListNotations.
Open Scope R_scope.
Open Scope string_scope.
Open Scope R_scope.

(** C99: nutation adds the nutation in longitude to every ecliptic longitude,
    the nutation in obliquity to the obliquity, and keeps ecliptic latitudes. *)
Theorem C99_nutation_moves_ecliptic_coordinates : forall tt M, let e := obliquity (centuries tt) in
  exists N dpsi deps, computeNutation tt M = Ret (true, N) /\ nutationAngles tt = Ret (true, (dpsi, deps)) /\
  forall l b, mvmul N (ecliptic e l b) = ecliptic (e + deps) (l + dpsi) b.
Proof. exact nutation_geometry. Qed.
Print Assumptions C99_nutation_moves_ecliptic_coordinates.
(** The equinox is the origin of longitudes; the solstice lies at the obliquity
    above the equator. *)
Example C99_case : forall e, ecliptic e 0 0 = ex /\ ecliptic e (PI/2) 0 = V3 0 (cos e) (sin e).
Proof.
  intros e. unfold ecliptic. rewrite cos_0, sin_0, cos_PI2, sin_PI2, !ProofAttitude2.rotate_ex. unfold ex. split; apply v3_eq; ring.
Qed.

(** C100: the pole of date is where the polar motion says: x along Greenwich,
    y along 90 degrees west. *)
Theorem C100_pole_in_earth_frame : forall st date file M A mjd o,
  computeRJ2k2Ecef st date file M = Ret (true, A) -> convertDatevec2Mjd date 0 = Ret (true, mjd) ->
  getCurrentEop st mjd (EO 0 0 0 0 0) = Ret (true, o) ->
  let tt := mjd + (32.184 + o_tai o) / 86400 in
  exists dpsi deps, nutationAngles tt = Ret (true, (dpsi, deps)) /\
  mvmul A (pole_of_date (centuries tt) dpsi deps) =
    V3 (sin (o_xPole o) * cos (o_yPole o)) (- sin (o_yPole o)) (cos (o_xPole o) * cos (o_yPole o)).
Proof. exact pole_geometry. Qed.
Print Assumptions C100_pole_in_earth_frame.
(** At J2000, without nutation, the pole of date is the J2000 pole. *)
Example C100_case : pole_of_date 0 0 0 = ez.
Proof.
  unfold pole_of_date. replace (prec_zeta 0) with 0 by (unfold prec_zeta; ring).
  replace (prec_theta 0) with 0 by (unfold prec_theta; ring). replace (prec_z 0) with 0 by (unfold prec_z; ring).
  rewrite Ropp_0, !turn_0, Rminus_0_r, Rplus_0_r. apply ecliptic_of_pole.
Qed.

(** C101: UTC, UT1-UTC and TAI-UTC enter only as UT1 and TAI: the rotation is
    the same whichever of two leap-second bookkeepings is used. *)
Theorem C101_leap_second_invariance : forall st1 st2 date1 date2 f1 f2 M1 M2 A1 A2 mjd1 mjd2 o1 o2,
  computeRJ2k2Ecef st1 date1 f1 M1 = Ret (true, A1) -> computeRJ2k2Ecef st2 date2 f2 M2 = Ret (true, A2) ->
  convertDatevec2Mjd date1 0 = Ret (true, mjd1) -> convertDatevec2Mjd date2 0 = Ret (true, mjd2) ->
  getCurrentEop st1 mjd1 (EO 0 0 0 0 0) = Ret (true, o1) -> getCurrentEop st2 mjd2 (EO 0 0 0 0 0) = Ret (true, o2) ->
  mjd1 + o_ut1 o1 / 86400 = mjd2 + o_ut1 o2 / 86400 -> mjd1 + o_tai o1 / 86400 = mjd2 + o_tai o2 / 86400 ->
  o_xPole o1 = o_xPole o2 -> o_yPole o1 = o_yPole o2 -> A1 = A2.
Proof. exact time_scales_only. Qed.
Print Assumptions C101_leap_second_invariance.
(** One-row tables before and after a second is inserted, and the same instant
    named 12:00:00 in one and 12:00:01 in the other. *)
Definition row1 (u t : R) : RotState := RS true (Eops [5] [1] [2] [u] [4] [t]).
Lemma row1_eop u t f : 0 <= f < 1 -> getCurrentEop (row1 u t) (5 + f) (EO 0 0 0 0 0) = Ret (true, EO (1 * arcsec) (2 * arcsec) u 4 t).
Proof.
  intros F.
  assert (Fl : Rfloor (5 + f) = 5).
  { unfold Rfloor. f_equal. apply Raux.Zfloor_imp. cbn. lra. }
  destruct (C38_linear_interpolation (row1 u t) 1 (5 + f) (EO 0 0 0 0 0) 0) as (_ & _ & E).
  - reflexivity.
  - repeat split; reflexivity.
  - rewrite Fl. split; [cbn; lia|]. split; [reflexivity|]. intros k K. exfalso; lia.
  - rewrite E. cbn. unfold lerp. do 3 f_equal; lra.
Qed.
Lemma noon_mjd s : s = 0 \/ s = 1 -> convertDatevec2Mjd [1858; 11; 22; 12; 0; s] 0 = Ret (true, 5 + (12 * 3600 + s) / 86400).
Proof.
  intros Hs. replace ((12 * 3600 + s) / 86400) with ((12 * 3600 + 0 * 60 + s) / 86400) by lra.
  apply (C32_mjd_counts_days (Date 1858 11 22) 5 12 0 s); try lra.
  - unfold valid_date; cbn; lia.
  - apply (days_from_total (Date 1858 11 22)). unfold valid_date; cbn; lia.
Qed.
Lemma row1_accepted u t s : s = 0 \/ s = 1 -> exists A, computeRJ2k2Ecef (row1 u t) [1858; 11; 22; 12; 0; s] "" m3zero = Ret (true, A).
Proof.
  intros Hs. assert (F : 0 <= (12 * 3600 + s) / 86400 < 1) by (destruct Hs; subst; lra).
  destruct (C40_inverse_rotations (row1 u t) [1858; 11; 22; 12; 0; s]) as [[H _]|[[(_ & mjd & C' & H) _]|(_ & mjd & o' & A & _ & _ & _ & _ & HA)]].
  - destruct H as [H|(mjd & [H|(H & o' & H')])]; [now cbn in H| |]; rewrite noon_mjd in H by auto; [discriminate|].
    injection H as <-. rewrite row1_eop in H' by auto. discriminate.
  - rewrite noon_mjd in C' by auto. injection C' as <-. rewrite row1_eop in H by auto. discriminate.
  - exists A. apply HA.
Qed.
Example C101_case : exists A, computeRJ2k2Ecef (row1 3 7) [1858; 11; 22; 12; 0; 0] "" m3zero = Ret (true, A) /\
  computeRJ2k2Ecef (row1 2 6) [1858; 11; 22; 12; 0; 1] "" m3zero = Ret (true, A).
Proof.
  destruct (row1_accepted 3 7 0) as (A & E); [auto|]. destruct (row1_accepted 2 6 1) as (B & E'); [auto|].
  exists A. split; [exact E|]. rewrite E'. do 2 f_equal.
  eapply C101_leap_second_invariance; [exact E'|exact E|apply noon_mjd; auto|apply noon_mjd; auto|apply row1_eop; lra|apply row1_eop; lra| | | |];
    cbn; lra.
Qed.

(** C102: at J2000 the mean equator of date turns at the published rates: right
    ascensions grow by m + n sin(RA) tan(dec) with m = 4612.4362'' and
    n = 2004.3109'' per century; in Cartesian form, for every direction v: *)
Theorem C102_precession_rates : forall v M,
  vec_derive (fun T => mvmul (snd (computePrecession 51544.5 (51544.5 + 36525 * T) M)) v) 0
    (V3 (- (4612.4362 * arcsec * vy v) - 2004.3109 * arcsec * vz v) (4612.4362 * arcsec * vx v) (2004.3109 * arcsec * vx v)).
Proof. exact precession_rates. Qed.
Print Assumptions C102_precession_rates.
(** The J2000 equinox drifts to larger right ascension and declination. *)
Example C102_case : 0 < 4612.4362 * arcsec * vx ex /\ 0 < 2004.3109 * arcsec * vx ex.
Proof. pose proof arcsec_pos. cbn. lra. Qed.
