(** Theorems C40-C42: the J2000-to-Earth-fixed rotation. *)
From Coq Require Import Reals ZArith List Lra Lia.
From Verif Require Import Base BaseVec SpecRot SpecCalendar ModelDate ModelEop ModelJ2k SpecEop SpecJ2k ProofEop ProofJ2k PropEop ProofDate ProofMjd PropDate.
Import ListNotations.
Open Scope R_scope.

(** C40: one case analysis for both functions. Rejected: both outputs untouched.
    Out-of-bounds table read: both undefined (never for a rectangular table, C37).
    Accepted: a rotation and its transpose, made of polar motion, sidereal time,
    nutation and precession turns of the two time scales TT and UT1. *)
Theorem C40_inverse_rotations : forall st date,
  ((List.length date <> 6%nat \/
    exists mjd, convertDatevec2Mjd date 0 = Ret (false, mjd) \/
      (convertDatevec2Mjd date 0 = Ret (true, mjd) /\ exists o, getCurrentEop st mjd (EO 0 0 0 0 0) = Ret (false, o))) /\
   forall file M, computeRJ2k2Ecef st date file M = Ret (false, M) /\ computeREcef2J2k st date file M = Ret (false, M)) \/
  ((List.length date = 6%nat /\ exists mjd, convertDatevec2Mjd date 0 = Ret (true, mjd) /\
      getCurrentEop st mjd (EO 0 0 0 0 0) = Undef) /\
   forall file M, computeRJ2k2Ecef st date file M = Undef /\ computeREcef2J2k st date file M = Undef) \/
  (List.length date = 6%nat /\ exists mjd o A, convertDatevec2Mjd date 0 = Ret (true, mjd) /\
      getCurrentEop st mjd (EO 0 0 0 0 0) = Ret (true, o) /\
      (let tt := mjd + (32.184 + o_tai o) / 86400 in
       let ut1 := mjd + o_ut1 o / 86400 in
       let T := centuries tt in
       exists g dpsi deps, gmsTime ut1 = Ret g /\ nutationAngles tt = Ret (true, (dpsi, deps)) /\
         forall v, mvmul A v =
           turn ey (- o_xPole o) (turn ex (- o_yPole o)
             (turn ez (g + dpsi * cos (obliquity T))
               (turn ex (- obliquity T - deps) (turn ez (- dpsi) (turn ex (obliquity T)
                 (turn ez (- prec_z T) (turn ey (prec_theta T) (turn ez (- prec_zeta T) v))))))))) /\
      is_rotation A /\
   forall file M, computeRJ2k2Ecef st date file M = Ret (true, A) /\ computeREcef2J2k st date file M = Ret (true, mtr A)).
Proof. exact j2k_cases. Qed.
Print Assumptions C40_inverse_rotations.
(** An accepted date: 1858-11-22 12:00, MJD 5.5, in the two-row table of C36. *)
Example C40_case : exists A, is_rotation A /\ forall file M,
  computeRJ2k2Ecef (RS true tab2) [1858; 11; 22; 12; 0; 0] file M = Ret (true, A).
Proof.
  destruct C38_case as (o & G & _).
  assert (C : exists m, convertDatevec2Mjd [1858; 11; 22; 12; 0; 0] 0 = Ret (true, m) /\ m = 5.5).
  { eexists. split.
    - apply (C32_mjd_counts_days (Date 1858 11 22) 5 12 0 0); try lra; [unfold valid_date; cbn; lia|].
      apply (days_from_total (Date 1858 11 22)). unfold valid_date; cbn; lia.
    - lra. }
  destruct C as (m & C & ->).
  destruct (C40_inverse_rotations (RS true tab2) [1858; 11; 22; 12; 0; 0]) as [[H _]|[[(_ & mjd & C' & H) _]|(_ & mjd & o' & A & _ & _ & _ & RA & HA)]].
  - destruct H as [H|(mjd & [H|(H & o' & H')])]; [now cbn in H| |]; rewrite C in H; inversion H; subst.
    rewrite G in H'. discriminate.
  - rewrite C in C'. inversion C'; subst. rewrite G in H. discriminate.
  - exists A. split; [exact RA|]. intros. apply HA.
Qed.

(** C41 *)
Theorem C41_nutation_bounded : forall mjd, exists dpsi deps, nutationAngles mjd = Ret (true, (dpsi, deps)) /\
  Rabs dpsi <= (19.4368 + 0.01823 * Rabs (centuries mjd)) * arcsec /\
  Rabs deps <= (10.0762 + 0.00141 * Rabs (centuries mjd)) * arcsec.
Proof. exact nutation_bounded. Qed.
Print Assumptions C41_nutation_bounded.
(** The bound is not met by, say, zero angles or swapped arguments: the angles
    are the main published terms up to the sum of the remaining amplitudes. *)
Theorem C41_nutation_main_terms : forall mjd, let T := centuries mjd in
  exists dpsi deps, nutationAngles mjd = Ret (true, (dpsi, deps)) /\
  Rabs (dpsi - main_psi T * arcsec) <= (0.3423 + 0.00027 * Rabs T) * arcsec /\
  Rabs (deps - main_eps T * arcsec) <= (0.1129 + 0.00011 * Rabs T) * arcsec.
Proof. exact nutation_main. Qed.
Print Assumptions C41_nutation_main_terms.
Theorem C41_arguments_reduced : forall x, exists k, reduceArg x = Ret (x - IZR k * 1296000) /\
  0 <= x - IZR k * 1296000 < 1296000.
Proof. exact reduceArg_ok. Qed.
Print Assumptions C41_arguments_reduced.

(** C42 *)
Theorem C42_hour_angle_turn : forall ut1 tt M, exists R g dpsi deps,
  computeGreenwichHourAngle ut1 tt M = Ret (true, R) /\ gmsTime ut1 = Ret g /\
  nutationAngles tt = Ret (true, (dpsi, deps)) /\
  forall v, mvmul R v = turn ez (g + dpsi * cos (obliquity (centuries tt))) v.
Proof. exact gha_ok. Qed.
Print Assumptions C42_hour_angle_turn.
Theorem C42_sidereal_time_range : forall mjd, exists g, gmsTime mjd = Ret g /\ 0 <= g < 2 * PI.
Proof. exact gms_range. Qed.
Print Assumptions C42_sidereal_time_range.
(** It is the 1982 sidereal time, to 1e-14 revolution (rounded constants). *)
Theorem C42_sidereal_time_is_gmst82 : forall mjd, exists g k e, gmsTime mjd = Ret g /\
  g = 2 * PI * (gmst82 (centuries mjd) / 86400 - IZR k + e) /\ Rabs e <= / 10 ^ 14.
Proof. exact gms_gmst82. Qed.
Print Assumptions C42_sidereal_time_is_gmst82.
Theorem C42_sidereal_rate : forall t1 t2, Rabs (centuries t1) <= 2 -> Rabs (centuries t2) <= 2 ->
  exists g1 g2 k, gmsTime t1 = Ret g1 /\ gmsTime t2 = Ret g2 /\
  Rabs ((g2 - g1) / (2 * PI) - 1.00273790935 * (t2 - t1) - IZR k) <= 2 / 10 ^ 10 * Rabs (t2 - t1) + 2 / 10 ^ 14.
Proof. exact gms_rate. Qed.
Print Assumptions C42_sidereal_rate.
Example C42_case : Rabs (centuries 51544) <= 2 /\ Rabs (centuries 51545) <= 2.
Proof. unfold centuries. split; apply Rabs_le; lra. Qed.
