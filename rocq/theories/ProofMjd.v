(** Proofs about convertDatevec2Mjd. *)
From Coq Require Import Reals ZArith List Bool Lia Lra.
From Flocq Require Import Core.
From Verif Require Import Base SpecCalendar ModelDate ProofDate.
Import ListNotations.
Open Scope Z_scope.

Ltac Zify.zify_post_hook ::= Z.to_euclidean_division_equations.

(** ** The whole-day number, in integers *)
Definition mjdZ (y0 m0 d : Z) : Z :=
  let y := if m0 <=? 2 then y0 - 1 else y0 in
  let m := if m0 <=? 2 then m0 + 12 else m0 in
  let b := if 10000 * y + 100 * m + d <=? 15821004 then -2 + (y + 4716) / 4 - 1179
           else y / 400 - y / 100 + y / 4 in
  365 * y - 679004 + b + (306001 * (m + 1)) / 10000 + d.

Definition mjd_of (d : date) : Z := mjdZ (year d) (month d) (day d).

Lemma mjd_epoch_0 : mjd_of mjd_epoch = 0.
Proof. reflexivity. Qed.

Lemma mjd_unix : mjd_of unix_epoch = 40587.
Proof. reflexivity. Qed.

Lemma next_same y m d : 1 <= m <= 12 -> mjdZ y m (d + 1) = mjdZ y m d + 1 \/
  (10000 * (if m <=? 2 then y - 1 else y) + 100 * (if m <=? 2 then m + 12 else m) + d = 15821004).
Proof.
  intros Hm. unfold mjdZ.
  set (y' := if m <=? 2 then y - 1 else y). set (m' := if m <=? 2 then m + 12 else m).
  destruct (Z.leb_spec (10000 * y' + 100 * m' + (d + 1)) 15821004),
           (Z.leb_spec (10000 * y' + 100 * m' + d) 15821004); try lia.
Qed.

Ltac zeval := cbn [Z.leb Z.compare Pos.compare Pos.compare_cont Z.add Pos.add Pos.succ Z.mul Pos.mul Z.sub Z.opp].
Ltac zdiv := repeat match goal with |- context [Z.div (Zpos ?a) (Zpos ?b)] =>
  let v := eval vm_compute in (Z.div (Zpos a) (Zpos b)) in change (Z.div (Zpos a) (Zpos b)) with v end.

Lemma mjd_december y : mjdZ (y + 1) 1 1 = mjdZ y 12 31 + 1.
Proof.
  unfold mjdZ. change (1 <=? 2) with true. change (12 <=? 2) with false. cbn iota.
  rewrite Z.add_simpl_r. change (306001 * (1 + 12 + 1) / 10000) with 428. change (306001 * (12 + 1) / 10000) with 397.
  destruct (Z.leb_spec (10000 * y + 100 * (1 + 12) + 1) 15821004), (Z.leb_spec (10000 * y + 100 * 12 + 31) 15821004);
  lia.
Qed.

Lemma mjd_february y : mjdZ y 3 1 = mjdZ y 2 (month_length y 2) + 1.
Proof.
  unfold mjdZ. change (2 <=? 2) with true. change (3 <=? 2) with false. cbn iota.
  change (306001 * (2 + 12 + 1) / 10000) with 459. change (306001 * (3 + 1) / 10000) with 122.
  unfold month_length, leap.
  destruct (Z.leb_spec y 1582).
  - destruct (Z.eqb_spec (y mod 4) 0);
    (destruct (Z.leb_spec (10000 * y + 100 * 3 + 1) 15821004); [|lia]);
    match goal with |- context [?a <=? 15821004] => destruct (Z.leb_spec a 15821004) end; lia.
  - destruct (Z.eqb_spec (y mod 4) 0), (Z.eqb_spec (y mod 100) 0), (Z.eqb_spec (y mod 400) 0); cbn [andb orb negb];
    (destruct (Z.leb_spec (10000 * y + 100 * 3 + 1) 15821004); [lia|]);
    match goal with |- context [?a <=? 15821004] => destruct (Z.leb_spec a 15821004) end; try lia.
Qed.

Lemma mjd_month y m : 1 <= m < 12 -> mjdZ y (m + 1) 1 = mjdZ y m (month_length y m) + 1.
Proof.
  intros Hm.
  assert (C : m = 1 \/ m = 2 \/ m = 3 \/ m = 4 \/ m = 5 \/ m = 6 \/ m = 7 \/ m = 8 \/ m = 9 \/ m = 10 \/ m = 11) by lia.
  destruct (Z.eq_dec m 2) as [->|N]; [apply mjd_february|].
  repeat destruct C as [C|C]; subst m; try lia; cbn [month_length]; unfold mjdZ;
  repeat match goal with |- context [?a <=? 2] => let v := eval vm_compute in (a <=? 2) in change (a <=? 2) with v end;
  cbn iota;
  repeat match goal with |- context [306001 * ?a / 10000] =>
    let v := eval vm_compute in (306001 * a / 10000) in change (306001 * a / 10000) with v end;
  repeat match goal with |- context [?a <=? ?b] => destruct (Z.leb_spec a b) end; lia.
Qed.

Lemma mjd_next d : valid_date d -> mjd_of (next_day d) = mjd_of d + 1.
Proof.
  destruct d as [y m d]. unfold valid_date, next_day, mjd_of. cbn [year month day]. intros (Hm & Hd & Hg).
  destruct ((y =? 1582) && (m =? 10) && (d =? 4)) eqn:E.
  { apply andb_true_iff in E as [E E3]. apply andb_true_iff in E as [E1 E2].
    apply Z.eqb_eq in E1, E2, E3. subst. reflexivity. }
  assert (N : ~ (y = 1582 /\ m = 10 /\ d = 4)).
  { intros (-> & -> & ->). discriminate. }
  destruct (Z.ltb_spec d (month_length y m)) as [L|L]; cbn [year month day].
  - destruct (next_same y m d Hm) as [H|H]; [exact H|exfalso].
    pose proof (month_length_bounds y m). destruct (Z.leb_spec m 2); lia.
  - assert (d = month_length y m) by lia. subst d.
    destruct (Z.ltb_spec m 12); cbn [year month day]; [apply mjd_month; lia|].
    assert (m = 12) by lia. subst m. apply mjd_december.
Qed.

Lemma mjd_later n d : valid_date d -> mjd_of (days_later n d) = mjd_of d + Z.of_nat n.
Proof.
  intros V. induction n; cbn [days_later]; [lia|]. rewrite mjd_next by now apply days_later_valid. lia.
Qed.

Lemma mjd_days_from d n : days_from mjd_epoch d n -> mjd_of d = n.
Proof.
  assert (V : valid_date mjd_epoch) by (unfold valid_date; cbn; lia).
  intros [[Hn ->]|[Hn [Vd E]]].
  - rewrite mjd_later, mjd_epoch_0 by auto. lia.
  - assert (X := mjd_later (Z.to_nat (- n)) d Vd). rewrite <- E, mjd_epoch_0 in X. lia.
Qed.

Lemma leap_days_bound y : Z.abs (-2 + (y + 4716) / 4 - 1179) <= Z.abs y + 9000 /\
  Z.abs (y / 400 - y / 100 + y / 4) <= Z.abs y + 9000.
Proof. split; lia. Qed.

(** ** The real computation *)
Section Conv.
Context (rnd : R -> R) (L : Z).
Hypothesis Hint : forall k, Z.abs k <= L -> rnd (IZR k) = IZR k.
Hypothesis Hdiv : forall k n, Z.abs k <= L -> n = 4 \/ n = 100 \/ n = 400 -> Zfloor (rnd (IZR k / IZR n)) = k / n.
Hypothesis Hmon : forall m, 3 <= m <= 14 -> Zfloor (rnd (rnd 30.6001 * IZR (m + 1))) = 306001 * (m + 1) / 10000.

Definition frac (h mi s : R) : R := rnd (rnd (rnd (h + rnd (mi / 60)) + rnd (s / 3600)) / 24).

Definition fields_ok (m d : Z) (h mi s : R) : Prop :=
  0 <= m <= 12 /\ 0 <= d <= 31 /\ (0 <= h <= 23 /\ 0 <= mi <= 59 /\ 0 <= s <= 59)%R.

Lemma Rltb'_false x y : (y <= x)%R -> Rltb' x y = false.
Proof. intros. unfold Rltb'. destruct (Rlt_dec x y); auto. lra. Qed.

Lemma Rleb'_IZR x y : Rleb' (IZR x) (IZR y) = (x <=? y).
Proof.
  unfold Rleb'. destruct (Rle_dec (IZR x) (IZR y)) as [H|H].
  - symmetry. apply Z.leb_le. now apply le_IZR.
  - symmetry. apply Z.leb_gt. apply Rnot_le_lt in H. now apply lt_IZR.
Qed.

Lemma conv_ok y m d h mi s tl mjd : fields_ok m d h mi s -> 10001 * Z.abs y + 1000000 <= L ->
  convertDatevec2Mjd_with rnd (IZR y :: IZR m :: IZR d :: h :: mi :: s :: tl) mjd
  = Ret (true, rnd (IZR (mjdZ y m d) + frac h mi s)).
Proof.
  intros (Hm & Hd & Hh & Hmi & Hs) HL. unfold convertDatevec2Mjd_with.
  assert (0 <= IZR m <= 12)%R by (split; apply IZR_le; lia).
  assert (0 <= IZR d <= 31)%R by (split; apply IZR_le; lia).
  rewrite !Rltb'_false by lra. cbn [orb].
  rewrite (Rleb'_IZR m 2). fold (frac h mi s).
  set (b := m <=? 2).
  assert (E1 : (if b then rnd (IZR m + 12) else IZR m) = IZR (if b then m + 12 else m)).
  { destruct b; auto. rewrite <- plus_IZR. apply Hint. lia. }
  assert (E2 : (if b then rnd (IZR y - 1) else IZR y) = IZR (if b then y - 1 else y)).
  { destruct b; auto. rewrite <- minus_IZR. apply Hint. lia. }
  rewrite E1, E2. clear E1 E2. unfold mjdZ. fold b.
  assert (Hm' : 3 <= (if b then m + 12 else m) <= 14) by (unfold b; destruct (Z.leb_spec m 2); lia).
  assert (Hy' : Z.abs (if b then y - 1 else y) <= Z.abs y + 1) by (destruct b; lia).
  set (m' := if b then m + 12 else m) in *. set (y' := if b then y - 1 else y) in *. clearbody m' y'.
  rewrite <- !mult_IZR, <- !plus_IZR, !Hint, <- !plus_IZR, !Hint, <- plus_IZR, Hint by lia.
  rewrite Rleb'_IZR. unfold Rfloor. rewrite !Hdiv, Hmon by lia.
  rewrite <- !minus_IZR, <- !plus_IZR, !Hint, <- !minus_IZR, <- !plus_IZR, !Hint by lia.
  match goal with |- context [if ?c then IZR ?p else IZR ?q] =>
    replace (if c then IZR p else IZR q) with (IZR (if c then p else q)) by (destruct c; reflexivity) end.
  set (b' := if _ <=? _ then _ else _).
  assert (Hb : Z.abs b' <= Z.abs y + 10000).
  { unfold b'. clear b'. destruct (leap_days_bound y') as [U1 U2].
    destruct (10000 * y' + 100 * m' + d <=? 15821004); clear b; [clear U2|clear U1]; eapply Z.le_trans; [eassumption| |eassumption|]; lia. }
  clearbody b'.
  assert (Hj : 0 <= 306001 * (m' + 1) / 10000 <= 500) by lia.
  rewrite <- !plus_IZR, !Hint, <- !plus_IZR, !Hint, <- plus_IZR, !Hint by lia.
  reflexivity.
Qed.
End Conv.

Lemma conv_exact y m d h mi s tl mjd : fields_ok m d h mi s ->
  convertDatevec2Mjd (IZR y :: IZR m :: IZR d :: h :: mi :: s :: tl) mjd
  = Ret (true, IZR (mjdZ y m d) + (h * 3600 + mi * 60 + s) / 86400)%R.
Proof.
  intros H. unfold convertDatevec2Mjd.
  rewrite (conv_ok (fun x => x) (10001 * Z.abs y + 1000000)); auto; try lia.
  - do 2 f_equal. unfold frac. lra.
  - intros k n _ Hn. apply Zfloor_div. lia.
  - intros k Hk. replace (30.6001 * IZR (k + 1))%R with (IZR (306001 * (k + 1)) / 10000)%R.
    + apply (Zfloor_div (306001 * (k + 1)) 10000). lia.
    + rewrite mult_IZR. lra.
Qed.

Lemma rnd_30 : (Rabs (rnd64 30.6001 - 30.6001) <= / 1000000)%R.
Proof.
  eapply Rle_trans; [apply (rnd64_error _ 5); [lia|]|].
  - rewrite Rabs_right by lra. cbn. lra.
  - cbn. lra.
Qed.

Lemma floor_months m : 3 <= m <= 14 -> Zfloor (rnd64 (rnd64 30.6001 * IZR (m + 1))) = 306001 * (m + 1) / 10000.
Proof.
  intros Hm. pose proof rnd_30 as E. apply Rabs_le_inv in E. set (c := rnd64 30.6001) in *. clearbody c.
  assert (K : (4 <= IZR (m + 1) <= 15)%R) by (split; apply IZR_le; lia).
  assert (B : (Rabs (c * IZR (m + 1)) < bpow radix2 9)%R).
  { rewrite Rabs_right; [|apply Rle_ge, Rmult_le_pos; lra]. cbn.
    apply Rle_lt_trans with (31 * 15)%R; [apply Rmult_le_compat; lra|lra]. }
  pose proof (rnd64_error _ 9 ltac:(lia) B) as E'. apply Rabs_le_inv in E'.
  assert (P : (bpow radix2 (9 - 54) <= / 1000000)%R) by (cbn; lra).
  set (z := rnd64 (c * IZR (m + 1))) in *. clearbody z.
  assert (C : m = 3 \/ m = 4 \/ m = 5 \/ m = 6 \/ m = 7 \/ m = 8 \/ m = 9 \/ m = 10 \/ m = 11 \/ m = 12 \/ m = 13 \/ m = 14)
    by lia.
  clear B. generalize dependent (bpow radix2 (9 - 54)). intros p E' P.
  repeat destruct C as [C|C]; subst m;
  match goal with |- _ = ?r => let v := eval vm_compute in r in change r with v end;
  apply Zfloor_imp; rewrite plus_IZR;
  match type of K with context [IZR (?a + 1)] =>
    let v := eval vm_compute in (a + 1) in change (a + 1) with v in * end; lra.
Qed.

Lemma floor_div64 k n : Z.abs k <= 2 ^ 40 -> n = 4 \/ n = 100 \/ n = 400 ->
  Zfloor (rnd64 (IZR k / IZR n)) = k / n.
Proof.
  intros Hk Hn. assert (P : (4 <= IZR n <= 400)%R) by (split; apply IZR_le; lia).
  apply (floor_rnd k n 41); try lia.
  - unfold Rdiv. rewrite Rabs_mult, (Rabs_right (/ IZR n)).
    + rewrite (bpow_Z 41), <- abs_IZR by lia.
      assert (IZR (Z.abs k) <= IZR (2 ^ 40))%R by (apply IZR_le; lia).
      assert (0 < / IZR n <= / 4)%R by (split; [apply Rinv_0_lt_compat|apply Rinv_le]; lra).
      change (2 ^ 40) with 1099511627776 in H. change (2 ^ 41) with 2199023255552.
      assert (0 <= IZR (Z.abs k))%R by (apply IZR_le; lia).
      apply Rle_lt_trans with (IZR (Z.abs k) * / 4)%R; [apply Rmult_le_compat_l; lra|lra].
    + apply Rle_ge, Rlt_le, Rinv_0_lt_compat. lra.
  - apply Rlt_le_trans with (/ 400)%R; [cbn; lra|]. apply Rinv_le; lra.
Qed.

Lemma frac_bound h mi s : (h <= 23 -> mi <= 59 -> s <= 59 -> 0 <= h -> 0 <= mi -> 0 <= s ->
  0 <= frac rnd64 h mi s <= 1 - / 100000 /\
  Rabs (frac rnd64 h mi s - (h * 3600 + mi * 60 + s) / 86400) <= / 1000000000)%R.
Proof.
  intros. unfold frac.
  assert (P : forall x, (0 <= x -> 0 <= rnd64 x)%R).
  { intros x Hx. rewrite <- (rnd64_int 0) by lia. now apply rnd64_le. }
  assert (U : forall x, (0 <= x <= 31 -> x - / 10000000000 <= rnd64 x <= x + / 10000000000)%R).
  { intros x Hx. pose proof (rnd64_error x 5 ltac:(lia)) as E. rewrite Rabs_right in E by lra.
    specialize (E ltac:(cbn; lra)). apply Rabs_le_inv in E.
    assert (bpow radix2 (5 - 54) <= / 10000000000)%R by (cbn; lra). lra. }
  assert (A1 : (0 <= rnd64 (mi / 60))%R) by (apply P; lra).
  pose proof (U (mi / 60)%R ltac:(lra)) as A2.
  assert (A3 : (0 <= rnd64 (s / 3600))%R) by (apply P; lra).
  pose proof (U (s / 3600)%R ltac:(lra)) as A4.
  set (a := rnd64 (mi / 60)) in *. set (b := rnd64 (s / 3600)) in *. clearbody a b.
  assert (A5 : (0 <= rnd64 (h + a))%R) by (apply P; lra).
  pose proof (U (h + a)%R ltac:(lra)) as A6.
  set (c := rnd64 (h + a)) in *. clearbody c.
  assert (A7 : (0 <= rnd64 (c + b))%R) by (apply P; lra).
  pose proof (U (c + b)%R ltac:(lra)) as A8.
  set (e := rnd64 (c + b)) in *. clearbody e.
  assert (A9 : (0 <= rnd64 (e / 24))%R) by (apply P; lra).
  pose proof (U (e / 24)%R ltac:(lra)) as A10.
  split; [lra|]. apply Rabs_le. lra.
Qed.

Lemma mjdZ_bound y m d : Z.abs y <= 100000000 -> 0 <= m <= 12 -> 0 <= d <= 31 -> Z.abs (mjdZ y m d) < 37000000000.
Proof.
  intros. unfold mjdZ. set (y' := if m <=? 2 then y - 1 else y). set (m' := if m <=? 2 then m + 12 else m).
  assert (Z.abs y' <= 100000001) by (unfold y'; destruct (m <=? 2); lia).
  assert (3 <= m' <= 14) by (unfold m'; destruct (Z.leb_spec m 2); lia).
  clearbody y' m'. pose proof (leap_days_bound y').
  assert (-2 + (y' + 4716) / 4 - 1179 <= 26000000 /\ -26000000 <= -2 + (y' + 4716) / 4 - 1179) by lia.
  assert (y' / 400 - y' / 100 + y' / 4 <= 26000000 /\ -26000000 <= y' / 400 - y' / 100 + y' / 4) by lia.
  assert (0 <= 306001 * (m' + 1) / 10000 <= 500) by lia.
  destruct (_ <=? _); lia.
Qed.

Lemma conv_double_floor y m d h mi s tl mjd : fields_ok m d h mi s -> Z.abs y <= 100000000 ->
  exists x, convertDatevec2Mjd64 (IZR y :: IZR m :: IZR d :: h :: mi :: s :: tl) mjd = Ret (true, x) /\
    Zfloor x = mjdZ y m d /\
    (Rabs (x - (IZR (mjdZ y m d) + (h * 3600 + mi * 60 + s) / 86400)) <= / 200000)%R.
Proof.
  intros H Hy. eexists. split.
  - apply (conv_ok rnd64 (2 ^ 40)); auto; try lia.
    + intros k Hk. apply rnd64_int. lia.
    + exact floor_div64.
    + exact floor_months.
  - destruct H as (Hm & Hd & Hh & Hmi & Hs).
    destruct (frac_bound h mi s) as [F1 F2]; try lra. apply Rabs_le_inv in F2.
    pose proof (mjdZ_bound y m d Hy Hm Hd) as B. set (M := mjdZ y m d) in *. set (f := frac rnd64 h mi s) in *.
    clearbody M f.
    assert (BM : (-37000000000 < IZR M < 37000000000)%R) by (split; apply IZR_lt; lia).
    assert (E : (Rabs (rnd64 (IZR M + f) - (IZR M + f)) <= bpow radix2 (36 - 54))%R).
    { apply rnd64_error; [lia|]. rewrite bpow_Z by lia. change (2 ^ 36) with 68719476736.
      apply Rabs_def1; lra. }
    apply Rabs_le_inv in E. replace (bpow radix2 (36 - 54)) with (/ 262144)%R in E by (cbn; lra).
    split; [|apply Rabs_le; lra].
    apply Zfloor_imp. rewrite plus_IZR. split; [|lra].
    rewrite <- (rnd64_int M) at 1 by lia. apply rnd64_le. lra.
Qed.

(** ** Validation *)
Lemma conv_accepts y m d h mi s tl mjd :
  (0 <= m <= 12 /\ 0 <= d <= 31 /\ 0 <= h <= 23 /\ 0 <= mi <= 59 /\ 0 <= s <= 59 ->
     exists x, convertDatevec2Mjd (y :: m :: d :: h :: mi :: s :: tl) mjd = Ret (true, x))%R /\
  (~ (0 <= m <= 12 /\ 0 <= d <= 31 /\ 0 <= h <= 23 /\ 0 <= mi <= 59 /\ 0 <= s <= 59) ->
     convertDatevec2Mjd (y :: m :: d :: h :: mi :: s :: tl) mjd = Ret (false, mjd))%R.
Proof.
  unfold convertDatevec2Mjd, convertDatevec2Mjd_with. split; intros H.
  - rewrite !Rltb'_false by lra. cbn [orb]. eexists. reflexivity.
  - unfold Rltb'.
    repeat match goal with |- context [Rlt_dec ?a ?b] => destruct (Rlt_dec a b); cbn [orb]; auto end.
    exfalso. apply H. lra.
Qed.

Lemma conv_short v mjd : (length v < 6)%nat -> convertDatevec2Mjd v mjd = Undef.
Proof.
  intros H. do 6 (destruct v as [|? v]; [reflexivity|]). cbn in H. lia.
Qed.

(** Civil date-times with any valid seconds up to 59. *)
Lemma conv_civil d n h mi s mjd : valid_date d -> days_from mjd_epoch d n ->
  (0 <= h <= 23 -> 0 <= mi <= 59 -> 0 <= s <= 59 ->
   convertDatevec2Mjd [IZR (year d); IZR (month d); IZR (day d); h; mi; s] mjd
   = Ret (true, IZR n + (h * 3600 + mi * 60 + s) / 86400))%R.
Proof.
  intros V D Hh Hmi Hs. rewrite conv_exact.
  - do 3 f_equal. f_equal. exact (mjd_days_from d n D).
  - destruct V as (V1 & V2 & _). pose proof (month_length_bounds (year d) (month d)).
    unfold fields_ok. lra || (repeat split; lra || lia).
Qed.

Lemma days_from_next d n : valid_date d -> days_from mjd_epoch d n -> days_from mjd_epoch (next_day d) (n + 1).
Proof.
  intros V [[Hn ->]|[Hn [_ E]]].
  - left. split; [lia|]. rewrite Z2Nat.inj_add by lia. rewrite Nat.add_comm. reflexivity.
  - destruct (Z.eq_dec n (-1)) as [->|N].
    + left. split; [lia|]. cbn. symmetry. exact E.
    + right. split; [lia|]. split; [now apply next_day_valid|]. rewrite E.
      replace (Z.to_nat (- n)) with (Z.to_nat (- (n + 1)) + 1)%nat by lia. now rewrite days_later_add.
Qed.

(** ** Dates and day numbers are in bijection *)
Definition first_of (k : Z) : Z := mjdZ (k / 12) (k mod 12 + 1) 1.

Lemma mjd_in_month y m d : 1 <= m <= 12 -> 1 <= d <= month_length y m -> ~ (y = 1582 /\ m = 10 /\ 5 <= d <= 14) ->
  mjdZ y m d = mjdZ y m 1 + (d - 1) - (if (y =? 1582) && (m =? 10) && (15 <=? d) then 10 else 0).
Proof.
  intros Hm Hd Hg. pose proof (month_length_bounds y m).
  destruct ((y =? 1582) && (m =? 10) && (15 <=? d)) eqn:E.
  - apply andb_true_iff in E as [E E3]. apply andb_true_iff in E as [E1 E2].
    apply Z.eqb_eq in E1, E2. apply Z.leb_le in E3. subst. unfold mjdZ.
    change (10 <=? 2) with false. cbn iota. change (10000 * 1582 + 100 * 10 + 1 <=? 15821004) with true.
    destruct (Z.leb_spec (10000 * 1582 + 100 * 10 + d) 15821004); [lia|].
    change (1582 / 400 - 1582 / 100 + 1582 / 4) with 383. change (-2 + (1582 + 4716) / 4 - 1179) with 393. lia.
  - assert (N : ~ (y = 1582 /\ m = 10 /\ 15 <= d)).
    { intros (-> & -> & X). apply Z.leb_le in X. rewrite X in E. discriminate. }
    unfold mjdZ. set (y' := if m <=? 2 then y - 1 else y). set (m' := if m <=? 2 then m + 12 else m).
    assert (K : (10000 * y' + 100 * m' + d <=? 15821004) = (10000 * y' + 100 * m' + 1 <=? 15821004)).
    { destruct (Z.leb_spec (10000 * y' + 100 * m' + d) 15821004), (Z.leb_spec (10000 * y' + 100 * m' + 1) 15821004);
      auto; exfalso; unfold y', m' in *; destruct (Z.leb_spec m 2); lia. }
    rewrite K. lia.
Qed.

Lemma first_of_bounds y m d : valid_date (Date y m d) ->
  first_of (12 * y + (m - 1)) <= mjdZ y m d < first_of (12 * y + (m - 1) + 1).
Proof.
  unfold valid_date. cbn [year month day]. intros (Hm & Hd & Hg). pose proof (month_length_bounds y m) as B.
  unfold first_of.
  replace ((12 * y + (m - 1)) / 12) with y by lia. replace ((12 * y + (m - 1)) mod 12 + 1) with m by lia.
  assert (N : mjdZ ((12 * y + (m - 1) + 1) / 12) ((12 * y + (m - 1) + 1) mod 12 + 1) 1
              = mjdZ y m (month_length y m) + 1).
  { destruct (Z.eq_dec m 12) as [->|M].
    - replace ((12 * y + (12 - 1) + 1) / 12) with (y + 1) by lia.
      replace ((12 * y + (12 - 1) + 1) mod 12 + 1) with 1 by lia. apply mjd_december.
    - replace ((12 * y + (m - 1) + 1) / 12) with y by lia.
      replace ((12 * y + (m - 1) + 1) mod 12 + 1) with (m + 1) by lia. apply mjd_month. lia. }
  rewrite N. rewrite (mjd_in_month y m d) by auto.
  assert (Ml : y = 1582 -> m = 10 -> month_length y m = 31) by (intros -> ->; reflexivity).
  rewrite (mjd_in_month y m (month_length y m)) by lia.
  destruct (Z.eqb_spec y 1582), (Z.eqb_spec m 10), (Z.leb_spec 15 d), (Z.leb_spec 15 (month_length y m));
  cbn [andb]; lia.
Qed.

Lemma first_of_mono k n : first_of k <= first_of (k + Z.of_nat n).
Proof.
  induction n as [|n IH]; [rewrite Z.add_0_r; lia|].
  assert (V : valid_date (Date ((k + Z.of_nat n) / 12) ((k + Z.of_nat n) mod 12 + 1) 1)).
  { unfold valid_date. cbn [year month day].
    pose proof (month_length_bounds ((k + Z.of_nat n) / 12) ((k + Z.of_nat n) mod 12 + 1)). lia. }
  apply first_of_bounds in V.
  replace (12 * ((k + Z.of_nat n) / 12) + ((k + Z.of_nat n) mod 12 + 1 - 1)) with (k + Z.of_nat n) in V by lia.
  replace (k + Z.of_nat (S n)) with (k + Z.of_nat n + 1) by lia. lia.
Qed.

Lemma mjd_injective d1 d2 : valid_date d1 -> valid_date d2 -> mjd_of d1 = mjd_of d2 -> d1 = d2.
Proof.
  destruct d1 as [y1 m1 d1], d2 as [y2 m2 d2]. unfold mjd_of. cbn [year month day]. intros V1 V2 E.
  pose proof (first_of_bounds _ _ _ V1) as B1. pose proof (first_of_bounds _ _ _ V2) as B2.
  set (k1 := 12 * y1 + (m1 - 1)) in *. set (k2 := 12 * y2 + (m2 - 1)) in *.
  assert (K : k1 = k2).
  { destruct (Z.lt_trichotomy k1 k2) as [L|[L|L]]; auto; exfalso.
    - pose proof (first_of_mono (k1 + 1) (Z.to_nat (k2 - (k1 + 1)))) as M.
      replace (k1 + 1 + Z.of_nat (Z.to_nat (k2 - (k1 + 1)))) with k2 in M by lia. lia.
    - pose proof (first_of_mono (k2 + 1) (Z.to_nat (k1 - (k2 + 1)))) as M.
      replace (k2 + 1 + Z.of_nat (Z.to_nat (k1 - (k2 + 1)))) with k1 in M by lia. lia. }
  destruct V1 as (U1 & U2 & U3), V2 as (W1 & W2 & W3). cbn [year month day] in *.
  assert (y1 = y2 /\ m1 = m2) as [<- <-] by (unfold k1, k2 in K; lia).
  rewrite (mjd_in_month y1 m1 d1), (mjd_in_month y1 m1 d2) in E by auto.
  f_equal. clear B1 B2 K k1 k2.
  destruct (Z.eqb_spec y1 1582), (Z.eqb_spec m1 10), (Z.leb_spec 15 d1), (Z.leb_spec 15 d2); cbn [andb] in E; lia.
Qed.

Lemma days_from_total d : valid_date d -> days_from mjd_epoch d (mjd_of d).
Proof.
  assert (V0 : valid_date mjd_epoch) by (unfold valid_date; cbn; lia).
  intros V. destruct (Z_lt_le_dec (mjd_of d) 0) as [L|L].
  - right. split; [lia|]. split; auto. apply mjd_injective; auto using days_later_valid.
    rewrite mjd_later, mjd_epoch_0 by auto. lia.
  - left. split; auto. apply mjd_injective; auto using days_later_valid.
    rewrite mjd_later, mjd_epoch_0 by auto. lia.
Qed.

Lemma next_day_year_le d : year (next_day d) <= year d + 1.
Proof.
  destruct d as [y m d]. unfold next_day. cbn [year month day].
  destruct ((y =? 1582) && (m =? 10) && (d =? 4)) eqn:E.
  - apply andb_true_iff in E as [E _]. apply andb_true_iff in E as [E _]. apply Z.eqb_eq in E. cbn. lia.
  - destruct (d <? month_length y m), (m <? 12); cbn [year]; lia.
Qed.

Lemma days_later_year n d : year d <= year (days_later n d) <= year d + Z.of_nat n.
Proof.
  induction n as [|n IH]; [cbn; lia|]. cbn [days_later].
  pose proof (next_day_year (days_later n d)). pose proof (next_day_year_le (days_later n d)). lia.
Qed.

Lemma unix_to_mjd t mjd : 0 <= t < 2 ^ 53 ->
  let s := t / 1000000 in
  let d := days_later (Z.to_nat (s / 86400)) unix_epoch in
  ~ (month d = 12 /\ day d = 31) ->
  exists v, unixTimestampToDateVec t [] = Ret (true, v) /\
    convertDatevec2Mjd v mjd = Ret (true, 40587 + IZR s / 86400)%R /\
    exists x, convertDatevec2Mjd64 v mjd = Ret (true, x) /\ Zfloor x = 40587 + s / 86400 /\
      (Rabs (x - (40587 + IZR s / 86400)) <= / 200000)%R.
Proof.
  intros Ht s d Hd. destruct (unix_date t [] Ht) as (V & _ & U). fold s in V, U. fold d in V, U.
  destruct (U Hd) as (hh & mm & ss & H1 & H2 & H3 & H4 & E). eexists. split; [exact E|]. cbn [app map].
  assert (M : mjdZ (year d) (month d) (day d) = 40587 + s / 86400).
  { change (mjd_of d = 40587 + s / 86400). unfold d. rewrite mjd_later by (unfold valid_date; cbn; lia).
    rewrite mjd_unix. unfold s. lia. }
  assert (F : fields_ok (month d) (day d) (IZR hh) (IZR mm) (IZR ss)).
  { destruct V as (V1 & V2 & _). pose proof (month_length_bounds (year d) (month d)).
    repeat split; try lia; apply IZR_le; lia. }
  assert (Q : (IZR (40587 + s / 86400) + (IZR hh * 3600 + IZR mm * 60 + IZR ss) / 86400
              = 40587 + IZR s / 86400)%R).
  { rewrite H4 at 2. rewrite !plus_IZR, !mult_IZR. lra. }
  split.
  - rewrite conv_exact by auto. rewrite M, Q. reflexivity.
  - destruct (conv_double_floor (year d) (month d) (day d) (IZR hh) (IZR mm) (IZR ss) [] mjd F) as (x & X1 & X2 & X3).
    + pose proof (days_later_year (Z.to_nat (s / 86400)) unix_epoch) as Y. fold d in Y. cbn [year unix_epoch] in Y.
      unfold s in *. lia.
    + exists x. rewrite M in X2, X3. rewrite Q in X3. auto.
Qed.

Lemma conv_civil64 d n h mi s mjd : valid_date d -> days_from mjd_epoch d n ->
  Z.abs (year d) <= 100000000 -> (0 <= h <= 23 -> 0 <= mi <= 59 -> 0 <= s <= 59 ->
  exists x, convertDatevec2Mjd64 [IZR (year d); IZR (month d); IZR (day d); h; mi; s] mjd = Ret (true, x) /\
    Zfloor x = n /\ Rabs (x - (IZR n + (h * 3600 + mi * 60 + s) / 86400)) <= / 200000)%R.
Proof.
  intros V D Hy Hh Hmi Hs. apply mjd_days_from in D. subst n.
  apply (conv_double_floor (year d) (month d) (day d)); auto.
  destruct V as (V1 & V2 & _). pose proof (month_length_bounds (year d) (month d)).
  unfold fields_ok. repeat split; lra || lia.
Qed.
