(** Proofs about unixTimestampToDateVec. *)
From Coq Require Import Reals ZArith List Bool Lia Lra.
From Flocq Require Import Core IEEE754.Binary IEEE754.Bits IEEE754.BinarySingleNaN.
From Verif Require Import Base SpecCalendar ModelDate.
Import ListNotations.
Open Scope Z_scope.

Ltac Zify.zify_post_hook ::= Z.to_euclidean_division_equations.

(** ** Calendar *)

Definition later (n : Z) (d : date) : date := days_later (Z.to_nat n) d.

Lemma days_later_add a b d : days_later (a + b) d = days_later a (days_later b d).
Proof. induction a; cbn; [reflexivity|now rewrite IHa]. Qed.

Lemma later_add a b d : 0 <= a -> 0 <= b -> later (a + b) d = later b (later a d).
Proof. intros. unfold later. rewrite Z2Nat.inj_add, Nat.add_comm by lia. apply days_later_add. Qed.

Lemma later_1 d : later 1 d = next_day d.
Proof. reflexivity. Qed.

Lemma month_length_bounds y m : 28 <= month_length y m <= 31.
Proof.
  unfold month_length.
  destruct m as [|p|p]; try lia. do 4 (try destruct p as [p|p|]); destruct (leap y); lia.
Qed.

Lemma later_in_month y m k : 1582 < y -> 0 <= k < month_length y m ->
  later k (Date y m 1) = Date y m (1 + k).
Proof.
  intros Hy. assert (G : forall n, Z.of_nat n < month_length y m ->
    days_later n (Date y m 1) = Date y m (1 + Z.of_nat n)).
  { induction n as [|n IH]; intros H; [reflexivity|]. cbn [days_later]. rewrite IH by lia.
    unfold next_day. cbn [year month day]. destruct (Z.eqb_spec y 1582); [lia|]. cbn [andb].
    destruct (Z.ltb_spec (1 + Z.of_nat n) (month_length y m)); [f_equal; lia|lia]. }
  intros H. unfold later. rewrite G; [f_equal; lia|lia].
Qed.

Lemma later_month y m : 1582 < y ->
  later (month_length y m) (Date y m 1) = if m <? 12 then Date y (m + 1) 1 else Date (y + 1) 1 1.
Proof.
  intros Hy. pose proof (month_length_bounds y m).
  replace (month_length y m) with ((month_length y m - 1) + 1) at 1 by lia.
  rewrite later_add, later_in_month, later_1 by lia. unfold next_day. cbn [year month day].
  destruct (Z.eqb_spec y 1582); [lia|]. cbn [andb].
  destruct (Z.ltb_spec (1 + (month_length y m - 1)) (month_length y m)); [lia|reflexivity].
Qed.

(** Days of the year before month [n + 1]. *)
Fixpoint cum (y : Z) (n : nat) : Z :=
  match n with O => 0 | S k => cum y k + month_length y (Z.of_nat (S k)) end.

Lemma cum_nonneg y n : 0 <= cum y n.
Proof.
  induction n; cbn [cum]; [lia|]. pose proof (month_length_bounds y (Z.of_nat (S n))). lia.
Qed.

Lemma later_cum y n : 1582 < y -> (n <= 11)%nat ->
  later (cum y n) (Date y 1 1) = Date y (Z.of_nat n + 1) 1.
Proof.
  intros Hy. induction n as [|n IH]; intros Hn; [reflexivity|]. cbn [cum].
  pose proof (cum_nonneg y n). pose proof (month_length_bounds y (Z.of_nat (S n))).
  rewrite later_add, IH by lia. replace (Z.of_nat n + 1) with (Z.of_nat (S n)) by lia.
  rewrite later_month by lia. destruct (Z.ltb_spec (Z.of_nat (S n)) 12); [reflexivity|lia].
Qed.

Definition year_length (y : Z) : Z := if leap y then 366 else 365.

Lemma later_year y : 1582 < y -> later (year_length y) (Date y 1 1) = Date (y + 1) 1 1.
Proof.
  intros Hy. replace (year_length y) with (cum y 11 + month_length y 12).
  - pose proof (cum_nonneg y 11). pose proof (month_length_bounds y 12).
    rewrite later_add, later_cum, later_month by lia. reflexivity.
  - unfold year_length. cbn. destruct (leap y); reflexivity.
Qed.

Lemma later_date y (n : nat) d : 1582 < y -> (n <= 11)%nat ->
  1 <= d <= month_length y (Z.of_nat n + 1) ->
  later (cum y n + (d - 1)) (Date y 1 1) = Date y (Z.of_nat n + 1) d.
Proof.
  intros. pose proof (cum_nonneg y n). rewrite later_add, later_cum, later_in_month by lia. f_equal. lia.
Qed.

Lemma isLeap_ok y : 1582 < y -> isLeap y = leap y.
Proof.
  intros. unfold isLeap, leap. destruct (Z.leb_spec y 1582); [lia|].
  rewrite !Z.rem_mod_nonneg by lia.
  destruct (Z.eqb_spec (y mod 400) 0), (Z.eqb_spec (y mod 4) 0), (Z.eqb_spec (y mod 100) 0);
  cbn; try reflexivity; lia.
Qed.

Lemma next_day_valid d : valid_date d -> valid_date (next_day d).
Proof.
  destruct d as [y m d]. unfold valid_date, next_day. cbn [year month day]. intros (H1 & H2 & H3).
  destruct (Z.eqb_spec y 1582), (Z.eqb_spec m 10), (Z.eqb_spec d 4); cbn [andb];
  try (subst; cbn; lia);
  (destruct (Z.ltb_spec d (month_length y m)); cbn [year month day]; [lia|]);
  (destruct (Z.ltb_spec m 12); cbn [year month day];
   [pose proof (month_length_bounds y (m + 1)); lia|cbn; lia]).
Qed.

Lemma days_later_valid n d : valid_date d -> valid_date (days_later n d).
Proof. intros. induction n; cbn; auto using next_day_valid. Qed.

Lemma next_day_year d : year d <= year (next_day d).
Proof.
  destruct d as [y m d]. unfold next_day. cbn [year month day].
  destruct (Z.eqb_spec y 1582), (Z.eqb_spec m 10), (Z.eqb_spec d 4); cbn [andb year]; try lia;
  destruct (d <? month_length y m), (m <? 12); cbn [year]; lia.
Qed.

(** ** The loops *)

Lemma yearLoop_ok fuel : forall y n, 1582 < y -> 0 <= n < 365 * Z.of_nat fuel ->
  exists y' r, yearLoop fuel y n = Ret (y', r) /\ y <= y' /\ 0 <= r < year_length y' /\
    later n (Date y 1 1) = later r (Date y' 1 1).
Proof.
  induction fuel as [|fuel IH]; intros y n Hy Hn; [lia|]. cbn [yearLoop]. rewrite isLeap_ok by lia.
  assert (S : year_length y <= n -> exists y' r, yearLoop fuel (y + 1) (n - year_length y) = Ret (y', r) /\
      y <= y' /\ 0 <= r < year_length y' /\ later n (Date y 1 1) = later r (Date y' 1 1)).
  { intros Hl. assert (365 <= year_length y) by (unfold year_length; destruct (leap y); lia).
    destruct (IH (y + 1) (n - year_length y)) as (y' & r & E & H1 & H2 & H3); try lia.
    exists y', r. repeat split; try lia; auto. rewrite <- H3, <- later_year, <- later_add by lia.
    f_equal. lia. }
  destruct (leap y) eqn:L.
  - assert (Y : year_length y = 366) by (unfold year_length; now rewrite L). rewrite Y in S.
    destruct (Z.ltb_spec n 366); [|auto]. exists y, n. repeat split; auto; lia.
  - assert (Y : year_length y = 365) by (unfold year_length; now rewrite L). rewrite Y in S.
    destruct (Z.ltb_spec n 365); [|auto]. exists y, n. repeat split; auto; lia.
Qed.

Definition monthDate (flag : bool) (e : Z) : outcome (Z * Z) :=
  me <- monthLoop 14 flag 0 0 e ;;
  let '(month, extraDays) := me in
  if 0 <? extraDays then Ret (month + 1, extraDays)
  else if (month =? 2) && flag then Ret (month, 29)
  else d <- daysOfMonthAt (month - 1) ;; Ret (month, d).

Lemma monthLoop_unroll : forall fuel flag i e, 0 <= i < 12 -> 0 <= e ->
  forall y, leap y = flag ->
  monthLoop (S fuel) flag i i e =
    if e - month_length y (i + 1) <? 0 then Ret (i, e)
    else monthLoop fuel flag (i + 1) (i + 1) (e - month_length y (i + 1)).
Proof.
  intros fuel flag i e Hi He y L. cbn [monthLoop].
  assert (C : i = 0 \/ i = 1 \/ i = 2 \/ i = 3 \/ i = 4 \/ i = 5 \/ i = 6 \/ i = 7 \/ i = 8 \/ i = 9 \/ i = 10 \/ i = 11)
    by lia.
  repeat destruct C as [C|C]; subst i; cbn; rewrite ?L; destruct flag; reflexivity.
Qed.

Lemma daysOfMonth_length y m : 1 <= m <= 12 -> (m =? 2) && leap y = false ->
  daysOfMonthAt (m - 1) = Ret (month_length y m).
Proof.
  intros Hm H.
  assert (C : m = 1 \/ m = 2 \/ m = 3 \/ m = 4 \/ m = 5 \/ m = 6 \/ m = 7 \/ m = 8 \/ m = 9 \/ m = 10 \/ m = 11 \/ m = 12)
    by lia.
  repeat destruct C as [C|C]; subst m; cbn in *; rewrite ?H; reflexivity.
Qed.

(** From the start of month [n + 1], with [e] days left. *)
Definition finish (flag : bool) (r : outcome (Z * Z)) : outcome (Z * Z) :=
  me <- r ;;
  let '(month, extraDays) := me in
  if 0 <? extraDays then Ret (month + 1, extraDays)
  else if (month =? 2) && flag then Ret (month, 29)
  else d <- daysOfMonthAt (month - 1) ;; Ret (month, d).

Lemma monthLoop_ok : forall k n y e, (k + n = 12)%nat -> (n <= 11)%nat -> 0 <= e -> (n = 0%nat -> 0 < e) ->
  e <= cum y 12 - cum y n ->
  if e =? cum y 12 - cum y n then finish (leap y) (monthLoop (S (S k)) (leap y) (Z.of_nat n) (Z.of_nat n) e) = Undef
  else exists n' d, (n' <= 11)%nat /\ 1 <= d <= month_length y (Z.of_nat n' + 1) /\
    cum y n' + d = cum y n + e /\
    finish (leap y) (monthLoop (S (S k)) (leap y) (Z.of_nat n) (Z.of_nat n) e) = Ret (Z.of_nat n' + 1, d).
Proof.
  induction k as [|k IH]; intros n y e Hk Hn He H0 Hc; [lia|].
  rewrite (monthLoop_unroll (S (S k)) (leap y) (Z.of_nat n) e ltac:(lia) He y eq_refl).
  assert (C1 : cum y (S n) = cum y n + month_length y (Z.of_nat n + 1))
    by (cbn [cum]; now replace (Z.of_nat (S n)) with (Z.of_nat n + 1) by lia).
  pose proof (month_length_bounds y (Z.of_nat n + 1)) as B.
  destruct (Z.ltb_spec (e - month_length y (Z.of_nat n + 1)) 0) as [L|L].
  - assert (e < cum y 12 - cum y n).
    { assert (cum y (S n) <= cum y 12); [|lia].
      assert (M : forall j i, cum y i <= cum y (j + i)).
      { induction j; intros i; cbn [cum Nat.add]; [lia|].
        pose proof (month_length_bounds y (Z.of_nat (S (j + i)))). specialize (IHj i). lia. }
      specialize (M k (S n)). replace (k + S n)%nat with 12%nat in M by lia. exact M. }
    destruct (Z.eqb_spec e (cum y 12 - cum y n)); [lia|].
    unfold finish, bind. destruct (Z.ltb_spec 0 e).
    + exists n, e. repeat split; try lia.
    + assert (e = 0) by lia. subst e. destruct n as [|n]; [lia|].
      exists n, (month_length y (Z.of_nat n + 1)). pose proof (month_length_bounds y (Z.of_nat n + 1)).
      split; [lia|]. split; [lia|]. split; [cbn [cum]; replace (Z.of_nat n + 1) with (Z.of_nat (S n)) by lia; lia|].
      destruct ((Z.of_nat (S n) =? 2) && leap y) eqn:F.
      * apply andb_true_iff in F as [F1 F2]. apply Z.eqb_eq in F1. assert (n = 1%nat) by lia. subst n.
        cbn. now rewrite F2.
      * rewrite (daysOfMonth_length y) by (auto; lia). do 2 f_equal; [lia|f_equal; lia].
  - destruct (Nat.eq_dec n 11) as [->|Hn'].
    + assert (e = cum y 12 - cum y 11) by lia. destruct (Z.eqb_spec e (cum y 12 - cum y 11)); [|lia].
      subst e. replace (cum y 12 - cum y 11 - month_length y (Z.of_nat 11 + 1)) with 0 by lia.
      assert (k = 0%nat) by lia. subst k. cbn. destruct (leap y); reflexivity.
    + specialize (IH (S n) y (e - month_length y (Z.of_nat n + 1))).
      replace (Z.of_nat n + 1) with (Z.of_nat (S n)) in * by lia.
      destruct (Z.eqb_spec e (cum y 12 - cum y n)) as [E|E].
      * destruct (Z.eqb_spec (e - month_length y (Z.of_nat (S n))) (cum y 12 - cum y (S n))); [|lia].
        apply IH; try lia.
      * destruct (Z.eqb_spec (e - month_length y (Z.of_nat (S n))) (cum y 12 - cum y (S n))); [lia|].
        destruct IH as (n' & d & H1 & H2 & H3 & H4); try lia. exists n', d. repeat split; auto; lia.
Qed.

Lemma cum_12 y : cum y 12 = year_length y.
Proof. unfold year_length. cbn. destruct (leap y); reflexivity. Qed.

Lemma dateFields_ok sec : 0 <= sec ->
  let d := days_later (Z.to_nat (sec / 86400)) unix_epoch in
  dateFields sec =
    if (month d =? 12) && (day d =? 31) then Undef
    else Ret [year d; month d; day d; (sec mod 86400) / 3600; (sec mod 3600) / 60; sec mod 60].
Proof.
  intros Hs d. unfold dateFields. change (24 * 60 * 60) with 86400.
  rewrite Z.quot_div_nonneg, Z.rem_mod_nonneg by lia.
  assert (T1 : Z.quot (sec mod 86400) 3600 = (sec mod 86400) / 3600) by (apply Z.quot_div_nonneg; lia).
  assert (T0 : Z.rem (sec mod 86400) 3600 = sec mod 3600) by lia.
  assert (T2 : Z.quot (Z.rem (sec mod 86400) 3600) 60 = (sec mod 3600) / 60)
    by (rewrite T0; apply Z.quot_div_nonneg; lia).
  assert (T3 : Z.rem (Z.rem (sec mod 86400) 3600) 60 = sec mod 60) by (rewrite T0; lia).
  set (n := sec / 86400) in *. assert (Hn : 0 <= n) by (unfold n; lia).
  destruct (yearLoop_ok (Z.to_nat (Z.max 0 (n / 365) + 2)) 1970 n) as (y & r & E & Hy & Hr & HL); try lia.
  rewrite E. cbn [bind].
  pose proof (monthLoop_ok 12 0 y (r + 1)) as M. rewrite cum_12 in M. cbn [cum Z.of_nat] in M.
  rewrite isLeap_ok by lia. change (later n (Date 1970 1 1)) with d in HL.
  assert (X : forall A (f : Z * Z -> outcome A),
    (me <- monthLoop 14 (leap y) 0 0 (r + 1) ;;
     let '(month, extraDays) := me in
     md <- (if 0 <? extraDays then Ret (month + 1, extraDays)
            else if (month =? 2) && leap y then Ret (month, 29)
            else d <- daysOfMonthAt (month - 1) ;; Ret (month, d)) ;; f md)
    = bind (finish (leap y) (monthLoop 14 (leap y) 0 0 (r + 1))) f).
  { intros. unfold finish. destruct (monthLoop 14 (leap y) 0 0 (r + 1)) as [[? ?]| | | |]; reflexivity. }
  rewrite X. clear X.
  specialize (M ltac:(lia) ltac:(lia) ltac:(lia) ltac:(lia) ltac:(lia)).
  destruct (Z.eqb_spec (r + 1) (year_length y - 0)) as [F|F].
  - rewrite M. cbn [bind].
    assert (D : d = Date y 12 31).
    { rewrite HL. replace r with (cum y 11 + (31 - 1)); [now apply later_date; cbn; lia|].
      rewrite <- cum_12 in F. cbn [cum] in F |- *. change (month_length y (Z.of_nat 12)) with 31 in F. lia. }
    rewrite D. reflexivity.
  - destruct M as (n' & dd & H1 & H2 & H3 & ->). cbn [bind].
    assert (D : d = Date y (Z.of_nat n' + 1) dd).
    { rewrite HL. replace r with (cum y n' + (dd - 1)) by lia. apply later_date; lia. }
    rewrite D. cbn [year month day].
    destruct (Z.eqb_spec (Z.of_nat n' + 1) 12) as [G|G], (Z.eqb_spec dd 31) as [G'|G']; cbn [andb];
    rewrite ?T1, ?T2, ?T3; try reflexivity.
    exfalso. assert (n' = 11%nat) by lia. subst n' dd. rewrite <- cum_12 in F. cbn [cum] in *.
    change (month_length y (Z.of_nat 12)) with 31 in F. lia.
Qed.

(** ** The double division *)

Definition fexp64 := FLT_exp (-1074) 53.
Lemma fexp64_valid : Valid_exp fexp64.
Proof. apply FLT_exp_valid. reflexivity. Qed.
#[global] Existing Instance fexp64_valid.

Lemma bpow_Z k : (0 <= k)%Z -> bpow radix2 k = IZR (2 ^ k).
Proof. intros. now rewrite <- IZR_Zpower. Qed.

Lemma exact_int k : (Z.abs k <= 2 ^ 53)%Z -> generic_format radix2 fexp64 (IZR k).
Proof.
  intros H. destruct (Z.eq_dec (Z.abs k) (2 ^ 53)) as [E|E].
  - assert (k = 2 ^ 53 \/ k = - 2 ^ 53) as [-> | ->] by lia.
    + change (2 ^ 53)%Z with (Zpower radix2 53). rewrite IZR_Zpower by lia.
      apply generic_format_bpow. cbn. lia.
    + rewrite opp_IZR. apply generic_format_opp. change (2 ^ 53)%Z with (Zpower radix2 53).
      rewrite IZR_Zpower by lia. apply generic_format_bpow. cbn. lia.
  - apply generic_format_FLT. exists (Float radix2 k 0); cbn; try lia.
    unfold F2R. cbn. ring.
Qed.

Lemma rnd64_int k : (Z.abs k <= 2 ^ 53)%Z -> rnd64 (IZR k) = IZR k.
Proof. intros. apply round_generic; [apply valid_rnd_N|now apply exact_int]. Qed.

Lemma rnd64_le x y : (x <= y)%R -> (rnd64 x <= rnd64 y)%R.
Proof. apply round_le; [apply fexp64_valid|apply valid_rnd_N]. Qed.

(** Half an ulp. *)
Lemma rnd64_error x e : (-1000 <= e)%Z -> (Rabs x < bpow radix2 e)%R ->
  (Rabs (rnd64 x - x) <= bpow radix2 (e - 54))%R.
Proof.
  intros He H. destruct (Req_dec x 0) as [->|Hx].
  { unfold rnd64. rewrite round_0, Rminus_0_r, Rabs_R0 by apply valid_rnd_N. apply bpow_ge_0. }
  pose proof (error_le_half_ulp radix2 fexp64 (fun z => negb (Z.even z)) x) as E. fold rnd64 in E.
  eapply Rle_trans; [exact E|].
  rewrite ulp_neq_0 by auto. unfold cexp, fexp64, FLT_exp.
  assert (M : (mag radix2 x <= e)%Z) by now apply mag_le_bpow.
  replace (/ 2)%R with (bpow radix2 (-1)) by (cbn; lra). rewrite <- bpow_plus. apply bpow_le. lia.
Qed.

Lemma floor_rnd k n e : (0 < n)%Z -> (-1000 <= e <= 53)%Z ->
  (Rabs (IZR k / IZR n) < bpow radix2 e)%R -> (bpow radix2 (e - 54) < / IZR n)%R ->
  Zfloor (rnd64 (IZR k / IZR n)) = (k / n)%Z.
Proof.
  intros Hn He Hx Hu. assert (Hn' : (0 < IZR n)%R) by (apply IZR_lt; lia).
  set (q := (k / n)%Z).
  assert (Q1 : (IZR q <= IZR k / IZR n)%R).
  { apply Rmult_le_reg_r with (IZR n); auto. unfold Rdiv. rewrite Rmult_assoc, Rinv_l, Rmult_1_r by lra.
    rewrite <- mult_IZR. apply IZR_le. unfold q. rewrite Z.mul_comm. apply Z.mul_div_le. lia. }
  assert (Q2 : (IZR k / IZR n <= IZR q + 1 - / IZR n)%R).
  { apply Rmult_le_reg_r with (IZR n); auto. unfold Rdiv.
    replace ((IZR q + 1 - / IZR n) * IZR n)%R with (IZR (q * n + n - 1)).
    - rewrite Rmult_assoc, Rinv_l, Rmult_1_r by lra. apply IZR_le.
      pose proof (Z.mul_succ_div_gt k n). unfold q. nia.
    - rewrite minus_IZR, plus_IZR, mult_IZR. field. lra. }
  apply Zfloor_imp. split.
  - rewrite <- (rnd64_int q); [now apply rnd64_le|].
    assert (bpow radix2 e <= bpow radix2 53)%R by (apply bpow_le; lia).
    rewrite (bpow_Z 53) in H by lia. apply le_IZR. rewrite abs_IZR.
    assert (0 < / IZR n <= 1)%R.
    { split; [now apply Rinv_0_lt_compat|]. rewrite <- Rinv_1. apply Rinv_le; try lra. apply IZR_le; lia. }
    unfold Rabs in *. destruct (Rcase_abs (IZR q)), (Rcase_abs (IZR k / IZR n)); try lra.
    + (* q > x - 1 : q >= -2^53 since both integers *)
      assert (X : (- IZR (2 ^ 53) - 1 < IZR q)%R) by lra.
      rewrite <- opp_IZR, <- minus_IZR in X. apply lt_IZR in X.
      rewrite <- opp_IZR. apply IZR_le. lia.
  - pose proof (rnd64_error _ e ltac:(lia) Hx) as E. apply Rabs_le_inv in E. rewrite plus_IZR. lra.
Qed.

Lemma rnd64_opp x : rnd64 (- x) = (- rnd64 x)%R.
Proof.
  unfold rnd64. rewrite round_NE_opp. reflexivity.
Qed.

Lemma rnd64_bound x e : (-1000 <= e)%Z -> (Rabs x <= bpow radix2 e)%R -> (Rabs (rnd64 x) <= bpow radix2 e)%R.
Proof.
  intros He H. apply abs_round_le_generic; auto; [apply fexp64_valid|apply valid_rnd_N|].
  apply generic_format_bpow. unfold FLT_exp. lia.
Qed.

Lemma small_lt x e : (e < 1024)%Z -> (Rabs x <= bpow radix2 e)%R -> Rlt_bool (Rabs x) (bpow radix2 1024) = true.
Proof.
  intros He H. apply Rlt_bool_true. eapply Rle_lt_trans; [exact H|]. now apply bpow_lt.
Qed.

Lemma doubleOfZ_ok t : (Z.abs t <= 2 ^ 63)%Z ->
  Binary.B2R 53 1024 (doubleOfZ t) = rnd64 (IZR t) /\ Binary.is_finite 53 1024 (doubleOfZ t) = true.
Proof.
  intros H. unfold doubleOfZ.
  pose proof (Binary.binary_normalize_correct 53 1024 (eq_refl _) (eq_refl _) mode_NE t 0 false) as C.
  assert (F : F2R (Float radix2 t 0) = IZR t) by (unfold F2R; cbn; ring). rewrite F in C.
  change (round radix2 _ (round_mode mode_NE) (IZR t)) with (rnd64 (IZR t)) in C.
  rewrite (small_lt _ 63) in C; [|lia|].
  - destruct C as (C1 & C2 & _). split; auto.
  - apply rnd64_bound; [lia|]. rewrite bpow_Z, <- abs_IZR by lia. now apply IZR_le.
Qed.

Lemma rnd64_million : rnd64 1000000 = 1000000%R.
Proof. apply (rnd64_int 1000000). lia. Qed.

Lemma div_million_bound x e : (Rabs x <= bpow radix2 e)%R -> (Rabs (x / 1000000) <= bpow radix2 e)%R.
Proof.
  intros H. unfold Rdiv. rewrite Rabs_mult, (Rabs_right (/ 1000000)) by lra. pose proof (Rabs_pos x). lra.
Qed.

Lemma unixSeconds_ok t : (Z.abs t <= 2 ^ 63)%Z ->
  unixSeconds t = Ztrunc (rnd64 (rnd64 (IZR t) / 1000000)).
Proof.
  intros H. destruct (doubleOfZ_ok t H) as [T1 T2]. destruct (doubleOfZ_ok 1000000 ltac:(lia)) as [M1 M2].
  unfold unixSeconds. apply eq_IZR. rewrite Binary.Btrunc_correct, round_FIX_IZR by reflexivity. f_equal. f_equal.
  unfold b64_div.
  pose proof (Binary.Bdiv_correct 53 1024 (eq_refl _) (eq_refl _) binop_nan_pl64 mode_NE (doubleOfZ t) (doubleOfZ 1000000)) as C.
  rewrite T1, M1, rnd64_million in C. specialize (C ltac:(lra)).
  change (round radix2 _ (round_mode mode_NE) (rnd64 (IZR t) / 1000000)) with (rnd64 (rnd64 (IZR t) / 1000000)) in C.
  rewrite (small_lt _ 63) in C; [apply C|lia|].
  apply rnd64_bound; [lia|]. apply div_million_bound. apply rnd64_bound; [lia|].
  rewrite bpow_Z, <- abs_IZR by lia. now apply IZR_le.
Qed.

Lemma bpow_m20 : (bpow radix2 (-20) < / 1000000)%R.
Proof. cbn. lra. Qed.

Lemma unixSeconds_exact t : (0 <= t < 2 ^ 53)%Z -> unixSeconds t = (t / 1000000)%Z.
Proof.
  intros H. rewrite unixSeconds_ok by lia. rewrite rnd64_int by lia.
  assert (P : (0 <= IZR t / 1000000)%R).
  { apply Rmult_le_pos; [apply IZR_le; lia|lra]. }
  rewrite Ztrunc_floor.
  - apply (floor_rnd t 1000000 34); try lia; [|exact bpow_m20].
    rewrite Rabs_right by lra. rewrite (bpow_Z 34) by lia.
    assert (X : (IZR t <= IZR (2 ^ 53))%R) by (apply IZR_le; lia).
    change (2 ^ 53)%Z with 9007199254740992%Z in X. change (2 ^ 34)%Z with 17179869184%Z. lra.
  - rewrite <- (rnd64_int 0) by lia. now apply rnd64_le.
Qed.

Lemma unixSeconds_negative t : (- 2 ^ 63 <= t <= -1000000)%Z -> (unixSeconds t <= -1)%Z.
Proof.
  intros H. rewrite unixSeconds_ok by lia.
  assert (X : (rnd64 (rnd64 (IZR t) / 1000000) <= -1)%R).
  { replace (-1)%R with (rnd64 (IZR (-1))) by (rewrite rnd64_int by lia; reflexivity). apply rnd64_le.
    assert (Y : (rnd64 (IZR t) <= rnd64 (IZR (-1000000)))%R) by (apply rnd64_le, IZR_le; lia).
    rewrite (rnd64_int (-1000000)) in Y by lia. lra. }
  rewrite Ztrunc_ceil by lra. apply Zceil_glb. exact X.
Qed.

Lemma unixSeconds_close t : (0 <= t < 2 ^ 63)%Z -> (Z.abs (unixSeconds t - t / 1000000) <= 1)%Z.
Proof.
  intros H. rewrite unixSeconds_ok by lia.
  assert (T0 : (0 <= IZR t)%R) by (apply IZR_le; lia).
  assert (T1 : (IZR t < IZR (2 ^ 63))%R) by (apply IZR_lt; lia).
  pose proof (rnd64_error (IZR t) 63 ltac:(lia)) as E1. rewrite Rabs_right, (bpow_Z 63) in E1 by (lra || lia).
  specialize (E1 T1). apply Rabs_le_inv in E1. change (63 - 54)%Z with 9%Z in E1. rewrite (bpow_Z 9) in E1 by lia.
  change (2 ^ 9)%Z with 512%Z in E1. change (2 ^ 63)%Z with 9223372036854775808%Z in T1.
  set (x := rnd64 (IZR t)) in *.
  assert (X0 : (0 <= x)%R) by (unfold x; rewrite <- (rnd64_int 0) by lia; now apply rnd64_le).
  pose proof (rnd64_error (x / 1000000) 44 ltac:(lia)) as E2.
  rewrite Rabs_right in E2 by lra. rewrite (bpow_Z 44) in E2 by lia. change (2 ^ 44)%Z with 17592186044416%Z in E2.
  specialize (E2 ltac:(lra)). apply Rabs_le_inv in E2. change (44 - 54)%Z with (-10)%Z in E2.
  assert (B : bpow radix2 (-10) = (1 / 1024)%R) by (cbn; lra). rewrite B in E2.
  set (y := rnd64 (x / 1000000)) in *.
  assert (Y0 : (0 <= y)%R).
  { unfold y. rewrite <- (rnd64_int 0) by lia. apply rnd64_le. lra. }
  rewrite Ztrunc_floor by auto.
  pose proof (Zfloor_lb y). pose proof (Zfloor_ub y).
  set (q := (t / 1000000)%Z).
  assert (Q : (q * 1000000 <= t < q * 1000000 + 1000000)%Z) by (unfold q; lia).
  assert (Q1 : (IZR q * 1000000 <= IZR t)%R) by (rewrite <- mult_IZR; apply IZR_le; lia).
  assert (Q2 : (IZR t < IZR q * 1000000 + 1000000)%R)
    by (rewrite <- mult_IZR, <- plus_IZR; apply IZR_lt; lia).
  assert (IZR (Zfloor y) < IZR (q + 2))%R by (rewrite plus_IZR; lra).
  assert (IZR (q - 2) < IZR (Zfloor y))%R by (rewrite minus_IZR; lra).
  apply lt_IZR in H2, H3. lia.
Qed.

Definition bad_t : Z := 9007199254999999.
Lemma unixSeconds_bad : unixSeconds bad_t = (bad_t / 1000000 + 1)%Z.
Proof. vm_compute. reflexivity. Qed.

(** ** Consequences *)

Lemma unix_nonneg t v : (0 <= unixSeconds t)%Z ->
  let s := unixSeconds t in
  let d := days_later (Z.to_nat (s / 86400)) unix_epoch in
  valid_date d /\
  (month d = 12 /\ day d = 31 -> unixTimestampToDateVec t v = Undef) /\
  (~ (month d = 12 /\ day d = 31) -> exists hh mm ss,
     0 <= hh < 24 /\ 0 <= mm < 60 /\ 0 <= ss < 60 /\
     s = (s / 86400) * 86400 + hh * 3600 + mm * 60 + ss /\
     unixTimestampToDateVec t v = Ret (true, v ++ map IZR [year d; month d; day d; hh; mm; ss])).
Proof.
  intros Hs s d. split; [apply days_later_valid; unfold valid_date; cbn; lia|].
  unfold unixTimestampToDateVec. rewrite dateFields_ok by auto. fold s. fold d. split.
  - intros [-> ->]. reflexivity.
  - intros H. exists ((s mod 86400) / 3600), ((s mod 3600) / 60), (s mod 60).
    split; [lia|]. split; [lia|]. split; [lia|]. split; [lia|].
    destruct (Z.eqb_spec (month d) 12), (Z.eqb_spec (day d) 31); cbn [andb bind]; tauto || reflexivity.
Qed.

Lemma unix_date t v : 0 <= t < 2 ^ 53 ->
  let s := t / 1000000 in
  let d := days_later (Z.to_nat (s / 86400)) unix_epoch in
  valid_date d /\
  (month d = 12 /\ day d = 31 -> unixTimestampToDateVec t v = Undef) /\
  (~ (month d = 12 /\ day d = 31) -> exists hh mm ss,
     0 <= hh < 24 /\ 0 <= mm < 60 /\ 0 <= ss < 60 /\
     s = (s / 86400) * 86400 + hh * 3600 + mm * 60 + ss /\
     unixTimestampToDateVec t v = Ret (true, v ++ map IZR [year d; month d; day d; hh; mm; ss])).
Proof.
  intros H. pose proof (unix_nonneg t v) as U. rewrite unixSeconds_exact in U by lia. apply U. lia.
Qed.

(** Every timestamp: never out of fuel; non-negative and off 31 December means success. *)
Lemma unix_before_1970 t v : - 2 ^ 63 <= t <= -1000000 ->
  unixTimestampToDateVec t v = Undef \/
  exists hh mm ss, (hh < 0 \/ mm < 0 \/ ss < 0) /\
    unixTimestampToDateVec t v = Ret (true, v ++ map IZR [1970; 1; 1; hh; mm; ss]).
Proof.
  intros H. apply unixSeconds_negative in H. unfold unixTimestampToDateVec.
  set (s := unixSeconds t) in *. clearbody s. unfold dateFields. change (24 * 60 * 60) with 86400.
  assert (Q : Z.quot s 86400 <= 0) by lia. set (n := Z.quot s 86400) in *.
  destruct (Z.eq_dec n 0) as [E|E].
  - right. rewrite E. exists (Z.quot (Z.rem s 86400) 3600), (Z.quot (Z.rem (Z.rem s 86400) 3600) 60),
      (Z.rem (Z.rem (Z.rem s 86400) 3600) 60). split; [lia|].
    change (yearLoop (Z.to_nat (Z.max 0 (0 / 365) + 2)) 1970 0) with (@Ret (Z * Z) (1970, 0)). cbn [bind].
    change (monthLoop 14 (isLeap 1970) 0 0 (0 + 1)) with (@Ret (Z * Z) (0, 1)). reflexivity.
  - left. destruct (Z.to_nat (Z.max 0 (n / 365) + 2)) as [|k] eqn:K.
    { lia. }
    cbn [yearLoop]. change (isLeap 1970) with false. cbn iota.
    destruct (Z.ltb_spec n 365); [|lia]. cbn [bind]. change (isLeap 1970) with false.
    cbn [monthLoop andb]. change (daysOfMonthAt 0) with (@Ret Z 31). cbn [bind].
    destruct (Z.ltb_spec (n + 1 - 31) 0); [|lia]. cbn [bind].
    destruct (Z.ltb_spec 0 (n + 1)); [lia|]. reflexivity.
Qed.

Lemma dateFields_length s f : dateFields s = Ret f -> length f = 6%nat.
Proof.
  unfold dateFields. destruct (yearLoop _ _ _) as [[? ?]| | | |]; try discriminate. cbn [bind].
  destruct (monthLoop _ _ _ _ _) as [[? ?]| | | |]; try discriminate. cbn [bind].
  match goal with |- context [bind ?e _] => destruct e as [[? ?]| | | |]; try discriminate end.
  cbn [bind]. intros E. apply (f_equal (fun o => match o with Ret l => length l | _ => 6%nat end)) in E.
  cbn in E. congruence.
Qed.

Lemma unix_appends t v ok v' : unixTimestampToDateVec t v = Ret (ok, v') ->
  ok = true /\ exists f, length f = 6%nat /\ v' = v ++ f /\ unixTimestampToDateVec t [] = Ret (true, f).
Proof.
  unfold unixTimestampToDateVec. destruct (dateFields (unixSeconds t)) as [f| | | |] eqn:E; try discriminate.
  cbn [bind app]. intros X. inversion X; subst. split; auto. exists (map IZR f). rewrite map_length.
  split; [now apply dateFields_length in E|]. auto.
Qed.
