(** Theorem C138: day number and sidereal time in double arithmetic. *)
From Coq Require Import Reals ZArith List Lra Lia.
From Verif Require Import Base BaseVec SpecCalendar ModelDate ModelJ2k ModelHourFloat ModelStrapdownFloat SpecFloatOps ProofMjd
  ProofStrapdownFloat2 ProofHourFloat.
Import ListNotations.
Open Scope R_scope.

(** C138: between 1810 and 2190 the day number that the code computes in double
    arithmetic is within 7.4e-12 of a day (0.64 microseconds) of the civil time. *)
Theorem C138_day_number : forall d n h mi s mjd, valid_date d -> days_from mjd_epoch d n -> (1810 <= year d <= 2190)%Z ->
  0 <= h <= 23 -> 0 <= mi <= 59 -> 0 <= s <= 59 ->
  exists x, convertDatevec2Mjd64 [IZR (year d); IZR (month d); IZR (day d); h; mi; s] mjd = Ret (true, x) /\
    Rabs (x - (IZR n + (h * 3600 + mi * 60 + s) / 86400)) <= 74 / 10000000000000.
Proof.
  intros d n h mi s mjd V D Y Hh Hm Hs. destruct (mjd_tight d n h mi s mjd V D Y Hh Hm Hs) as (x & E & K & _).
  exists x. now split.
Qed.
Print Assumptions C138_day_number.
(** So times that are 1.3 microseconds apart get day numbers in the same order. *)
Theorem C138_order_kept : forall d1 n1 h1 mi1 s1 d2 n2 h2 mi2 s2 mjd,
  valid_date d1 -> days_from mjd_epoch d1 n1 -> (1810 <= year d1 <= 2190)%Z -> 0 <= h1 <= 23 -> 0 <= mi1 <= 59 -> 0 <= s1 <= 59 ->
  valid_date d2 -> days_from mjd_epoch d2 n2 -> (1810 <= year d2 <= 2190)%Z -> 0 <= h2 <= 23 -> 0 <= mi2 <= 59 -> 0 <= s2 <= 59 ->
  86400 * IZR n1 + h1 * 3600 + mi1 * 60 + s1 + 13 / 10000000 <= 86400 * IZR n2 + h2 * 3600 + mi2 * 60 + s2 ->
  exists x1 x2, convertDatevec2Mjd64 [IZR (year d1); IZR (month d1); IZR (day d1); h1; mi1; s1] mjd = Ret (true, x1) /\
    convertDatevec2Mjd64 [IZR (year d2); IZR (month d2); IZR (day d2); h2; mi2; s2] mjd = Ret (true, x2) /\ x1 < x2.
Proof. exact mjd_order. Qed.
Print Assumptions C138_order_kept.
(** "Different times get different day numbers" is false: on 24 April 2038 all
    times in the first 0.6 microseconds get the day number 65537. *)
Theorem C138_different_times_refuted :
  ~ (forall s1 s2 mjd, 0 <= s1 < s2 -> s2 <= 59 ->
      convertDatevec2Mjd64 [2038; 4; 24; 0; 0; s1] mjd <> convertDatevec2Mjd64 [2038; 4; 24; 0; 0; s2] mjd).
Proof.
  intros H. apply (H 0 (6 / 10000000) 0); try lra. rewrite !mjd_blind by lra. reflexivity.
Qed.
Print Assumptions C138_different_times_refuted.
(** C138: the mean sidereal time, within 200 years of 2000, in any arithmetic
    with the error bound of doubles, is within 2e-12 rad of the exact value, up
    to whole turns. *)
Theorem C138_sidereal_time : forall F m, float_ok F -> Rabs (m - 51544.5) <= 73050 ->
  exists g g' k, gmsTime m = Ret g /\ gmsTime_f (frnd F) m = Ret g' /\
    Rabs (g' - (g + 2 * PI * IZR k)) <= 2 / 1000000000000.
Proof. intros F m HF. exact (gms_float F HF m). Qed.
Print Assumptions C138_sidereal_time.
(** C138: from the civil date to the angle, all in double arithmetic: 1e-10 rad. *)
Theorem C138_angle_from_date : forall d n h mi s mjd du, valid_date d -> days_from mjd_epoch d n -> (1810 <= year d <= 2190)%Z ->
  0 <= h <= 23 -> 0 <= mi <= 59 -> 0 <= s <= 59 -> Rabs du <= 1 ->
  exists x g g' k, convertDatevec2Mjd64 [IZR (year d); IZR (month d); IZR (day d); h; mi; s] mjd = Ret (true, x) /\
    gmsTime (IZR n + (h * 3600 + mi * 60 + s + du) / 86400) = Ret g /\
    gmsTime_f rnd64 (mjdUt1_f rnd64 x du) = Ret g' /\
    Rabs (g' - (g + 2 * PI * IZR k)) <= / 10000000000.
Proof. exact hour_angle. Qed.
Print Assumptions C138_angle_from_date.
(** So turning a position by the computed angle is wrong by at most 1e-10 of its
    length, 0.64 mm on the ground. *)
Theorem C138_on_the_ground : forall d n h mi s mjd du, valid_date d -> days_from mjd_epoch d n -> (1810 <= year d <= 2190)%Z ->
  0 <= h <= 23 -> 0 <= mi <= 59 -> 0 <= s <= 59 -> Rabs du <= 1 ->
  exists x g g', convertDatevec2Mjd64 [IZR (year d); IZR (month d); IZR (day d); h; mi; s] mjd = Ret (true, x) /\
    gmsTime (IZR n + (h * 3600 + mi * 60 + s + du) / 86400) = Ret g /\
    gmsTime_f rnd64 (mjdUt1_f rnd64 x du) = Ret g' /\
    forall v, norm (vsub (mvmul (elemZ g') v) (mvmul (elemZ g) v)) <= / 10000000000 * norm v.
Proof. exact ground. Qed.
Print Assumptions C138_on_the_ground.
(** Without rounding this is the model of ModelJ2k.v. *)
Theorem C138_exact_arithmetic : forall m, gmsTime_f (fun x => x) m = gmsTime m.
Proof. exact gms_exact. Qed.
Print Assumptions C138_exact_arithmetic.
(** 12:34:56.789 on 1 January 2024, UT1-UTC of -0.01 s. *)
Example C138_case : exists x g g', convertDatevec2Mjd64 [2024; 1; 1; 12; 34; 56.789] 0 = Ret (true, x) /\
  gmsTime (60310 + (12 * 3600 + 34 * 60 + 56.789 + -0.01) / 86400) = Ret g /\
  gmsTime_f rnd64 (mjdUt1_f rnd64 x (- 0.01)) = Ret g' /\
  norm (vsub (mvmul (elemZ g') (V3 6378137 0 0)) (mvmul (elemZ g) (V3 6378137 0 0))) <= 0.00064.
Proof.
  assert (V : valid_date (Date 2024 1 1)) by (unfold valid_date; cbn; lia).
  destruct (C138_on_the_ground (Date 2024 1 1) 60310 12 34 56.789 0 (- 0.01)) as (x & g & g' & E1 & E2 & E3 & K); try lra; try exact V.
  - exact (days_from_total _ V).
  - cbn. lia.
  - apply Rabs_le. lra.
  - exists x, g, g'. split; [exact E1|]. split; [exact E2|]. split; [exact E3|]. eapply Rle_trans; [apply K|].
    unfold norm, dot. cbn [vx vy vz]. replace (6378137 * 6378137 + 0 * 0 + 0 * 0) with (Rsqr 6378137) by (unfold Rsqr; ring).
    rewrite sqrt_Rsqr; lra.
Qed.
Example C138_float : float_ok binary64_ops.
Proof. exact binary64_ok. Qed.
