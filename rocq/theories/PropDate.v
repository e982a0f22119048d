(** Theorems C28-C35: timestamps, civil dates and Modified Julian Dates
    (src/util/Rotations.cpp 370-528). *)
From Coq Require Import Reals ZArith List Lia Lra.
From Flocq Require Import Core.
From Verif Require Import Base SpecCalendar ModelDate ProofDate ProofMjd.
Import ListNotations.
Open Scope Z_scope.

(** C28: right date and time of day, except that 31 December is undefined behaviour. *)
Theorem C28_timestamp_to_civil_date : forall t v, 0 <= t < 2 ^ 53 ->
  let s := t / 1000000 in
  let d := days_later (Z.to_nat (s / 86400)) unix_epoch in
  valid_date d /\
  (month d = 12 /\ day d = 31 -> unixTimestampToDateVec t v = Undef) /\
  (~ (month d = 12 /\ day d = 31) -> exists hh mm ss,
     0 <= hh < 24 /\ 0 <= mm < 60 /\ 0 <= ss < 60 /\
     s = (s / 86400) * 86400 + hh * 3600 + mm * 60 + ss /\
     unixTimestampToDateVec t v = Ret (true, v ++ map IZR [year d; month d; day d; hh; mm; ss])).
Proof. intros t v. exact (unix_date t v). Qed.
Print Assumptions C28_timestamp_to_civil_date.
Theorem C28_no_undefined_behaviour_refuted : exists t, 0 <= t < 2 ^ 53 /\ forall v, unixTimestampToDateVec t v = Undef.
Proof.
  exists (86400000000 * 364). split; [lia|]. intros v. unfold unixTimestampToDateVec.
  replace (dateFields _) with (@Undef (list Z)) by (vm_compute; reflexivity). reflexivity.
Qed.
Print Assumptions C28_no_undefined_behaviour_refuted.
Example C28_leap_day : unixTimestampToDateVec 1709210096999999 [] = Ret (true, map IZR [2024; 2; 29; 12; 34; 56]).
Proof.
  unfold unixTimestampToDateVec.
  replace (dateFields _) with (Ret [2024; 2; 29; 12; 34; 56]) by (vm_compute; reflexivity). reflexivity.
Qed.
Example C28_century : unixTimestampToDateVec 4107542400000000 [] = Ret (true, map IZR [2100; 3; 1; 0; 0; 0]).
Proof.
  unfold unixTimestampToDateVec.
  replace (dateFields _) with (Ret [2100; 3; 1; 0; 0; 0]) by (vm_compute; reflexivity). reflexivity.
Qed.

(** C29 *)
Theorem C29_seconds_exact_below_2_53 : forall t, 0 <= t < 2 ^ 53 -> unixSeconds t = t / 1000000.
Proof. exact unixSeconds_exact. Qed.
Print Assumptions C29_seconds_exact_below_2_53.
Theorem C29_seconds_within_one : forall t, 0 <= t < 2 ^ 63 -> Z.abs (unixSeconds t - t / 1000000) <= 1.
Proof. exact unixSeconds_close. Qed.
Print Assumptions C29_seconds_within_one.
Theorem C29_not_rounded_up_refuted : exists t, 0 <= t < 2 ^ 63 /\ unixSeconds t = t / 1000000 + 1 /\
  unixTimestampToDateVec t [] = Ret (true, map IZR [2255; 6; 5; 23; 47; 35]) /\
  unixTimestampToDateVec (t - 999999) [] = Ret (true, map IZR [2255; 6; 5; 23; 47; 34]).
Proof.
  exists 9007199254999999. split; [lia|]. split; [vm_compute; reflexivity|].
  unfold unixTimestampToDateVec. split.
  - replace (dateFields _) with (Ret [2255; 6; 5; 23; 47; 35]) by (vm_compute; reflexivity). reflexivity.
  - replace (dateFields _) with (Ret [2255; 6; 5; 23; 47; 34]) by (vm_compute; reflexivity). reflexivity.
Qed.
Print Assumptions C29_not_rounded_up_refuted.
Example C29_case : unixSeconds 9007199254740991 = 9007199254.
Proof. vm_compute. reflexivity. Qed.

(** C30: no timestamp a second or more before 1970 gives a valid date and time. *)
Theorem C30_before_1970_refuted : forall t v, - 2 ^ 63 <= t <= -1000000 ->
  unixTimestampToDateVec t v = Undef \/
  exists hh mm ss, (hh < 0 \/ mm < 0 \/ ss < 0) /\
    unixTimestampToDateVec t v = Ret (true, v ++ map IZR [1970; 1; 1; hh; mm; ss]).
Proof. exact unix_before_1970. Qed.
Print Assumptions C30_before_1970_refuted.
Example C30_case : unixTimestampToDateVec (-1000000) [] = Ret (true, map IZR [1970; 1; 1; 0; 0; -1]) /\
  unixTimestampToDateVec (-86400000000) [] = Undef.
Proof.
  unfold unixTimestampToDateVec. split.
  - replace (dateFields _) with (Ret [1970; 1; 1; 0; 0; -1]) by (vm_compute; reflexivity). reflexivity.
  - replace (dateFields _) with (@Undef (list Z)) by (vm_compute; reflexivity). reflexivity.
Qed.

(** C31: the six fields are appended, so only an empty vector ends with six. *)
Theorem C31_fields_are_appended : forall t v ok v', unixTimestampToDateVec t v = Ret (ok, v') ->
  ok = true /\ exists f, length f = 6%nat /\ v' = v ++ f /\ unixTimestampToDateVec t [] = Ret (true, f).
Proof. exact unix_appends. Qed.
Print Assumptions C31_fields_are_appended.
Theorem C31_reused_vector_refuted : exists t v, unixTimestampToDateVec t [] = Ret (true, v) /\
  length v = 6%nat /\ exists v', unixTimestampToDateVec t v = Ret (true, v') /\ length v' = 12%nat.
Proof.
  exists 0. unfold unixTimestampToDateVec.
  replace (dateFields _) with (Ret [1970; 1; 1; 0; 0; 0]) by (vm_compute; reflexivity).
  eexists. split; [reflexivity|]. split; [reflexivity|]. eexists. split; reflexivity.
Qed.
Print Assumptions C31_reused_vector_refuted.

(** C32: the day number counts days from 1858-11-17, for every civil date. *)
Theorem C32_mjd_counts_days : forall d n h mi s mjd, valid_date d -> days_from mjd_epoch d n ->
  (0 <= h <= 23 -> 0 <= mi <= 59 -> 0 <= s <= 59 ->
   convertDatevec2Mjd [IZR (year d); IZR (month d); IZR (day d); h; mi; s] mjd
   = Ret (true, IZR n + (h * 3600 + mi * 60 + s) / 86400))%R.
Proof. exact conv_civil. Qed.
Print Assumptions C32_mjd_counts_days.
Theorem C32_every_date_has_one_day_number : forall d, valid_date d ->
  exists n, days_from mjd_epoch d n /\ forall k, days_from mjd_epoch d k -> k = n.
Proof.
  intros d V. exists (mjd_of d). split; [now apply days_from_total|].
  intros k H. symmetry. now apply mjd_days_from.
Qed.
Print Assumptions C32_every_date_has_one_day_number.
Theorem C32_next_day_adds_one : forall d n, valid_date d -> days_from mjd_epoch d n ->
  valid_date (next_day d) /\ days_from mjd_epoch (next_day d) (n + 1).
Proof. intros d n V H. split; [now apply next_day_valid|now apply days_from_next]. Qed.
Print Assumptions C32_next_day_adds_one.
Theorem C32_distinct_dates_distinct_numbers : forall d1 d2 n, valid_date d1 -> valid_date d2 ->
  days_from mjd_epoch d1 n -> days_from mjd_epoch d2 n -> d1 = d2.
Proof.
  intros d1 d2 n V1 V2 H1 H2. apply mjd_injective; auto.
  rewrite (mjd_days_from _ _ H1), (mjd_days_from _ _ H2). reflexivity.
Qed.
Print Assumptions C32_distinct_dates_distinct_numbers.
Example C32_case : valid_date (Date 2000 2 29) /\ valid_date (Date (-4712) 1 1) /\ ~ valid_date (Date 1900 2 29) /\
  days_from mjd_epoch (Date 2000 1 1) 51544 /\ days_from mjd_epoch (Date (-4712) 1 1) (-2400001) /\
  next_day (Date 1582 10 4) = Date 1582 10 15.
Proof.
  assert (V : valid_date (Date (-4712) 1 1)) by (unfold valid_date; cbn; lia).
  assert (V' : valid_date (Date 2000 1 1)) by (unfold valid_date; cbn; lia).
  repeat split; try (cbn; lia); try (intros [_ [X _]]; cbn in X; lia).
  - exact (days_from_total _ V').
  - exact (days_from_total _ V).
Qed.

(** C33 *)
Theorem C33_fields_validated : forall y m d h mi s tl mjd,
  (0 <= m <= 12 /\ 0 <= d <= 31 /\ 0 <= h <= 23 /\ 0 <= mi <= 59 /\ 0 <= s <= 59 ->
     exists x, convertDatevec2Mjd (y :: m :: d :: h :: mi :: s :: tl) mjd = Ret (true, x))%R /\
  (~ (0 <= m <= 12 /\ 0 <= d <= 31 /\ 0 <= h <= 23 /\ 0 <= mi <= 59 /\ 0 <= s <= 59) ->
     convertDatevec2Mjd (y :: m :: d :: h :: mi :: s :: tl) mjd = Ret (false, mjd))%R.
Proof. exact conv_accepts. Qed.
Print Assumptions C33_fields_validated.
(** The last second of every minute is rejected as soon as it has a fraction. *)
Theorem C33_every_civil_time_accepted_refuted : forall y m d h mi s mjd, (59 < s < 60)%R ->
  convertDatevec2Mjd [y; m; d; h; mi; s] mjd = Ret (false, mjd).
Proof. intros. apply conv_accepts. intros (_ & _ & _ & _ & X). lra. Qed.
Print Assumptions C33_every_civil_time_accepted_refuted.
(** Month 0, day 0 and 31 February are accepted. *)
Theorem C33_invalid_dates_rejected_refuted :
  (exists x, convertDatevec2Mjd [2000; 0; 1; 0; 0; 0]%R 0 = Ret (true, x)) /\
  (exists x, convertDatevec2Mjd [2000; 1; 0; 0; 0; 0]%R 0 = Ret (true, x)) /\
  (exists x, convertDatevec2Mjd [2000; 2; 31; 0; 0; 0]%R 0 = Ret (true, x)).
Proof. repeat split; apply conv_accepts; lra. Qed.
Print Assumptions C33_invalid_dates_rejected_refuted.
Theorem C33_short_vector_undefined : forall v mjd, (length v < 6)%nat -> convertDatevec2Mjd v mjd = Undef.
Proof. exact conv_short. Qed.
Print Assumptions C33_short_vector_undefined.

(** C34: with every operation rounded to double. *)
Theorem C34_double_mjd_falls_on_the_civil_day : forall d n h mi s mjd, valid_date d -> days_from mjd_epoch d n ->
  Z.abs (year d) <= 100000000 -> (0 <= h <= 23 -> 0 <= mi <= 59 -> 0 <= s <= 59 ->
  exists x, convertDatevec2Mjd64 [IZR (year d); IZR (month d); IZR (day d); h; mi; s] mjd = Ret (true, x) /\
    Zfloor x = n /\ Rabs (x - (IZR n + (h * 3600 + mi * 60 + s) / 86400)) <= / 200000)%R.
Proof. exact conv_civil64. Qed.
Print Assumptions C34_double_mjd_falls_on_the_civil_day.
Example C34_case : exists x,
  convertDatevec2Mjd64 [IZR 1858; IZR 11; IZR 17; 23; 59; 59]%R 0 = Ret (true, x) /\ Zfloor x = 0.
Proof.
  destruct (C34_double_mjd_falls_on_the_civil_day mjd_epoch 0 23 59 59 0) as (x & H1 & H2 & _);
  try lra; try (unfold valid_date; cbn; lia).
  - left. split; [lia|reflexivity].
  - eauto.
Qed.

(** C35 *)
Theorem C35_timestamp_to_mjd : forall t mjd, 0 <= t < 2 ^ 53 ->
  let s := t / 1000000 in
  let d := days_later (Z.to_nat (s / 86400)) unix_epoch in
  ~ (month d = 12 /\ day d = 31) ->
  exists v, unixTimestampToDateVec t [] = Ret (true, v) /\
    convertDatevec2Mjd v mjd = Ret (true, 40587 + IZR s / 86400)%R /\
    exists x, convertDatevec2Mjd64 v mjd = Ret (true, x) /\ Zfloor x = 40587 + s / 86400 /\
      (Rabs (x - (40587 + IZR s / 86400)) <= / 200000)%R.
Proof. exact unix_to_mjd. Qed.
Print Assumptions C35_timestamp_to_mjd.
Example C35_case : exists v, unixTimestampToDateVec 1000000 [] = Ret (true, v) /\
  convertDatevec2Mjd v 0 = Ret (true, 40587 + 1 / 86400)%R.
Proof.
  destruct (C35_timestamp_to_mjd 1000000 0) as (v & H1 & H2 & _); [lia|vm_compute; intros [X _]; discriminate|].
  exists v. split; [exact H1|]. rewrite H2. reflexivity.
Qed.
