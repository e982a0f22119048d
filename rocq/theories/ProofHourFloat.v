(** Error of the mean sidereal time and of the day number in double arithmetic. *)
From Coq Require Import Reals ZArith List Lra Lia Psatz.
From Flocq Require Import Core.
From Verif Require Import Base BaseVec SpecRot SpecEarth SpecCalendar ModelDate ModelEop ModelJ2k SpecJ2k ModelHourFloat ModelStrapdownFloat SpecFloatOps ProofVec ProofPi ProofDate ProofMjd ProofJ2k
  ProofRnd ProofStrapdownFloat ProofStrapdownFloat2 ProofGravityFloat.
Import ListNotations.
Open Scope R_scope.

Section Gms.
Variable F : FloatOps.
Hypothesis HF : float_ok F.
Let rnd := frnd F.
Lemma ap_divc x y k M c : 0 < c -> ap x y k M -> ap (x / c) (y / c) (k / c) (M / c).
Proof.
  intros C (A & B). assert (P : 0 < / c) by now apply Rinv_0_lt_compat. split.
  - replace (x / c - y / c) with ((x - y) * / c) by (unfold Rdiv; ring). rewrite Rabs_mult, (Rabs_right (/ c)) by lra.
    replace (k / c * u64) with (k * u64 * / c) by (unfold Rdiv; ring). apply Rmult_le_compat_r; lra.
  - unfold Rdiv. rewrite Rabs_mult, (Rabs_right (/ c)) by lra. apply Rmult_le_compat_r; lra.
Qed.
Ltac bn := lazymatch goal with
  | H : ap ?x ?y _ _ |- ap ?x ?y _ _ => exact H
  | |- ap (frnd _ _) _ _ _ => eapply (ap_rnd F HF); bn
  | |- ap (_ * _) (_ * _) _ _ => eapply ap_mul; [bn|bn]
  | |- ap (_ / _) (_ / _) _ _ => eapply ap_divc; [lra|bn]
  | |- ap (_ + _) (_ + _) _ _ => eapply ap_add; [bn|bn]
  | |- ap (_ - _) (_ - _) _ _ => eapply ap_sub; [bn|bn]
  | |- ap ?x ?x _ _ => apply ap_const; lra end.
Ltac ab := eapply ap_le; [bn| |]; num.

Lemma gms_float m : Rabs (m - 51544.5) <= 73050 -> exists g g' k, gmsTime m = Ret g /\ gmsTime_f rnd m = Ret g' /\
  Rabs (g' - (g + 2 * PI * IZR k)) <= 2 / 1000000000000.
Proof.
  intros Hm. unfold gmsTime, gmsTime_f. set (m0 := Rfloor m). assert (H0 : m0 <= m < m0 + 1).
  { unfold m0, Rfloor. split; [apply Zfloor_lb|apply Zfloor_ub]. }
  apply Rabs_le_inv in Hm.
  assert (A1 : ap (rnd (86400 * rnd (m - m0))) (86400 * (m - m0)) 200000 86400).
  { assert (ap (m - m0) (m - m0) 0 1) by (apply ap_exact, Rabs_le; lra). unfold rnd. ab. }
  assert (A2 : ap (rnd (rnd (m0 - 51544.5) / 36525)) ((m0 - 51544.5) / 36525) (401 / 100) (20001 / 10000)).
  { assert (ap (m0 - 51544.5) (m0 - 51544.5) 0 73051) by (apply ap_exact, Rabs_le; lra). unfold rnd. ab. }
  assert (A3 : ap (rnd (rnd (m - 51544.5) / 36525)) ((m - 51544.5) / 36525) (401 / 100) (20001 / 10000)).
  { assert (ap (m - 51544.5) (m - 51544.5) 0 73051) by (apply ap_exact, Rabs_le; lra). unfold rnd. ab. }
  set (Ut1 := 86400 * (m - m0)) in *. set (t0 := (m0 - 51544.5) / 36525) in *. set (t := (m - 51544.5) / 36525) in *.
  set (Ut1' := rnd (86400 * rnd (m - m0))) in *. set (t0' := rnd (rnd (m0 - 51544.5) / 36525)) in *. set (t' := rnd (rnd (m - 51544.5) / 36525)) in *.
  set (G := 24110.54841 + 8640184.812866 * t0 + 1.002737909350795 * Ut1 + (0.093104 - 0.0000062 * t) * t * t).
  set (G' := rnd (rnd (rnd (rnd 24110.54841 + rnd (rnd 8640184.812866 * t0')) + rnd (rnd 1.002737909350795 * Ut1'))
              + rnd (rnd (rnd (rnd 0.093104 - rnd (rnd 0.0000062 * t')) * t') * t'))).
  assert (A4 : ap G' G 130000000 17500000).
  { unfold G', G, rnd. clearbody Ut1 t0 t Ut1' t0' t'. ab. }
  set (V := 2 * PI * (G / 86400 - Rfloor (G / 86400))).
  set (V' := rnd (rnd (2 * rnd PI) * rnd (rnd (G' / 86400) - Rfloor (rnd (G' / 86400))))).
  enough (X : exists k, Rabs (V' - (V + 2 * PI * IZR k)) <= 2 / 1000000000000).
  { destruct X as (k & X). exists V, V', k. split; [reflexivity|]. split; [reflexivity|]. exact X. }
  unfold V, V'. clear V V'. clearbody G G'.
  assert (A5 : ap (rnd (G' / 86400)) (G / 86400) 1720 203) by (unfold rnd; ab).
  set (q' := rnd (G' / 86400)) in *. set (q := G / 86400) in *. clearbody q q'.
  set (f := Rfloor q'). assert (Hf : f <= q' < f + 1) by (unfold f, Rfloor; split; [apply Zfloor_lb|apply Zfloor_ub]).
  assert (A6 : ap (q' - f) (q - f) 1720 (1001 / 1000)).
  { destruct A5 as (B1 & _). split.
    - replace (q' - f - (q - f)) with (q' - q) by ring. exact B1.
    - pose proof u64_bounds as U. apply Rabs_le_inv in B1. apply Rabs_le. lra. }
  pose proof PI_bounds as PB. assert (P : ap PI PI 0 (32 / 10)) by (apply ap_exact, Rabs_le; lra).
  assert (A7 : ap (rnd (rnd (2 * rnd PI) * rnd (q' - f))) (2 * PI * (q - f)) 11500 7) by (unfold rnd; ab).
  exists (Zfloor q - Zfloor q')%Z. rewrite minus_IZR. unfold f, Rfloor in *.
  replace (2 * PI * (q - IZR (Zfloor q)) + 2 * PI * (IZR (Zfloor q) - IZR (Zfloor q'))) with (2 * PI * (q - IZR (Zfloor q'))) by ring.
  destruct A7 as (B & _). eapply Rle_trans; [exact B|]. pose proof u64_val as UV. rewrite UV. lra.
Qed.
End Gms.

(** ** The day number to 8e-12 of a day *)
Lemma frac_tight h mi s : h <= 23 -> mi <= 59 -> s <= 59 -> 0 <= h -> 0 <= mi -> 0 <= s ->
  0 <= frac rnd64 h mi s <= 1 /\
  Rabs (frac rnd64 h mi s - (h * 3600 + mi * 60 + s) / 86400) <= / 100000000000000.
Proof.
  intros. split; [pose proof (frac_bound h mi s); lra|]. unfold frac.
  assert (U : forall x, 0 <= x <= 31 -> x - 2 / 1000000000000000 <= rnd64 x <= x + 2 / 1000000000000000).
  { intros x Hx. pose proof (rnd64_error x 5 ltac:(lia)) as E. rewrite Rabs_right in E by lra.
    specialize (E ltac:(cbn; lra)). apply Rabs_le_inv in E.
    assert (bpow radix2 (5 - 54) <= 2 / 1000000000000000) by (cbn; lra). lra. }
  assert (P : forall x, 0 <= x -> 0 <= rnd64 x).
  { intros x Hx. rewrite <- (rnd64_int 0) by lia. now apply rnd64_le. }
  pose proof (U (mi / 60) ltac:(lra)) as A2. pose proof (P (mi / 60) ltac:(lra)) as A1.
  pose proof (U (s / 3600) ltac:(lra)) as A4. pose proof (P (s / 3600) ltac:(lra)) as A3.
  set (a := rnd64 (mi / 60)) in *. set (b := rnd64 (s / 3600)) in *. clearbody a b.
  pose proof (U (h + a) ltac:(lra)) as A6. pose proof (P (h + a) ltac:(lra)) as A5.
  set (c := rnd64 (h + a)) in *. clearbody c.
  pose proof (U (c + b) ltac:(lra)) as A8. pose proof (P (c + b) ltac:(lra)) as A7.
  set (e := rnd64 (c + b)) in *. clearbody e.
  pose proof (U (e / 24) ltac:(lra)) as A10.
  apply Rabs_le. lra.
Qed.

Lemma mjd_years y m d : (1810 <= y <= 2190)%Z -> (1 <= m <= 12)%Z -> (1 <= d <= 31)%Z ->
  (-19000 <= mjdZ y m d <= 122000)%Z.
Proof.
  intros. unfold mjdZ. destruct (m <=? 2)%Z eqn:E; [apply Z.leb_le in E|apply Z.leb_gt in E];
    destruct (_ <=? _)%Z; Z.div_mod_to_equations; lia.
Qed.

Lemma mjd_tight d n h mi s mjd : valid_date d -> days_from mjd_epoch d n -> (1810 <= year d <= 2190)%Z ->
  0 <= h <= 23 -> 0 <= mi <= 59 -> 0 <= s <= 59 ->
  exists x, convertDatevec2Mjd64 [IZR (year d); IZR (month d); IZR (day d); h; mi; s] mjd = Ret (true, x) /\
    Rabs (x - (IZR n + (h * 3600 + mi * 60 + s) / 86400)) <= 74 / 10000000000000 /\ (-19000 <= n <= 122000)%Z.
Proof.
  intros V D Hy Hh Hmi Hs. apply mjd_days_from in D. subst n.
  assert (HF : fields_ok (month d) (day d) h mi s).
  { destruct V as (V1 & V2 & _). pose proof (month_length_bounds (year d) (month d)).
    unfold fields_ok. repeat split; lra || lia. }
  eexists. split.
  - apply (conv_ok rnd64 (2 ^ 40)); auto; try lia.
    + intros k Hk. apply rnd64_int. lia.
    + exact floor_div64.
    + exact floor_months.
  - destruct (frac_tight h mi s) as [F1 F2]; try lra. apply Rabs_le_inv in F2.
    assert (B : (-19000 <= mjdZ (year d) (month d) (day d) <= 122000)%Z).
    { destruct V as (V1 & V2 & _). pose proof (month_length_bounds (year d) (month d)). apply mjd_years; lia. }
    change (mjd_of d) with (mjdZ (year d) (month d) (day d)).
    set (M := mjdZ (year d) (month d) (day d)) in *. set (f := frac rnd64 h mi s) in *. clearbody M f.
    assert (BM : -19000 <= IZR M <= 122000) by (split; apply IZR_le; lia).
    assert (E : Rabs (rnd64 (IZR M + f) - (IZR M + f)) <= bpow radix2 (17 - 54)).
    { apply rnd64_error; [lia|]. rewrite bpow_Z by lia. change (2 ^ 17)%Z with 131072%Z. apply Rabs_def1; lra. }
    apply Rabs_le_inv in E. assert (Q : bpow radix2 (17 - 54) <= 73 / 10000000000000) by (cbn; lra).
    split; [apply Rabs_le; lra|lia].
Qed.

(** ** The angle from a civil date *)
Lemma hour_angle d n h mi s mjd du : valid_date d -> days_from mjd_epoch d n -> (1810 <= year d <= 2190)%Z ->
  0 <= h <= 23 -> 0 <= mi <= 59 -> 0 <= s <= 59 -> Rabs du <= 1 ->
  exists x g g' k, convertDatevec2Mjd64 [IZR (year d); IZR (month d); IZR (day d); h; mi; s] mjd = Ret (true, x) /\
    gmsTime (IZR n + (h * 3600 + mi * 60 + s + du) / 86400) = Ret g /\
    gmsTime_f rnd64 (mjdUt1_f rnd64 x du) = Ret g' /\
    Rabs (g' - (g + 2 * PI * IZR k)) <= / 10000000000.
Proof.
  intros V D Hy Hh Hmi Hs Hu. destruct (mjd_tight d n h mi s mjd V D Hy Hh Hmi Hs) as (x & Ex & Bx & Bn).
  apply Rabs_le_inv in Bx. apply Rabs_le_inv in Hu.
  assert (BM : -19000 <= IZR n <= 122000) by (split; apply IZR_le; lia).
  set (e := IZR n + (h * 3600 + mi * 60 + s + du) / 86400). set (x' := mjdUt1_f rnd64 x du).
  assert (B' : Rabs (x' - e) <= 148 / 10000000000000).
  { assert (E1 : Rabs (rnd64 (du / 86400) - du / 86400) <= bpow radix2 (0 - 54)).
    { apply rnd64_error; [lia|]. cbn. apply Rabs_def1; lra. }
    apply Rabs_le_inv in E1. assert (Q1 : bpow radix2 (0 - 54) <= / 10000000000000000) by (cbn; lra).
    assert (E : Rabs (rnd64 (x + rnd64 (du / 86400)) - (x + rnd64 (du / 86400))) <= bpow radix2 (17 - 54)).
    { apply rnd64_error; [lia|]. rewrite bpow_Z by lia. change (2 ^ 17)%Z with 131072%Z. apply Rabs_def1; lra. }
    apply Rabs_le_inv in E. assert (Q : bpow radix2 (17 - 54) <= 73 / 10000000000000) by (cbn; lra).
    unfold x', mjdUt1_f, e. apply Rabs_le. lra. }
  assert (Be : -19001 <= e <= 122002) by (unfold e; lra).
  pose proof (Rabs_le_inv _ _ B') as B2.
  destruct (gms_float binary64_ops binary64_ok x') as (g2 & g' & k1 & E2 & Eg' & K1); [apply Rabs_le; lra|].
  destruct (gms_rate e x') as (g & g2' & k2 & Eg & E2' & K2); [unfold centuries; apply Rabs_le; lra..|].
  rewrite E2' in E2. injection E2 as ->. exists x, g, g', (k1 + k2)%Z.
  split; [exact Ex|]. split; [exact Eg|]. split; [exact Eg'|]. rewrite plus_IZR.
  pose proof PI_bounds as PB. apply Rabs_le_inv in K2. apply Rabs_le_inv in K1.
  assert (K3 : Rabs ((g2 - g) / (2 * PI) - IZR k2) <= 15 / 1000000000000).
  { assert (P1 : 2 / 10 ^ 10 * Rabs (x' - e) + 2 / 10 ^ 14 <= 3 / 100000000000000) by (pose proof (Rabs_pos (x' - e)); nra).
    set (b := 2 / 10 ^ 10 * Rabs (x' - e) + 2 / 10 ^ 14) in *. set (q := (g2 - g) / (2 * PI)) in *. clearbody b q.
    apply Rabs_le. split; lra. }
  assert (K4 : Rabs (g2 - g - 2 * PI * IZR k2) <= 15 / 1000000000000 * (2 * PI)).
  { replace (g2 - g - 2 * PI * IZR k2) with (((g2 - g) / (2 * PI) - IZR k2) * (2 * PI)) by (field; lra).
    rewrite Rabs_mult, (Rabs_right (2 * PI)) by lra. apply Rmult_le_compat_r; lra. }
  apply Rabs_le_inv in K4. apply Rabs_le. lra.
Qed.

(** ** Resolution *)
Lemma mjd_blind s mjd : 0 <= s <= 6 / 10000000 ->
  convertDatevec2Mjd64 [2038; 4; 24; 0; 0; s] mjd = Ret (true, 65537).
Proof.
  intros Hs. unfold convertDatevec2Mjd64.
  rewrite (conv_ok rnd64 (2 ^ 40)%Z) with (y := 2038%Z) (m := 4%Z) (d := 24%Z); try lia.
  - do 2 f_equal. change (mjdZ 2038 4 24) with 65537%Z. destruct (frac_tight 0 0 s) as [F1 F2]; try lra. apply Rabs_le_inv in F2.
    replace 65537 with (IZR (65537 * 2 ^ 36) * bpow radix2 (-36)) at 2 by (cbn; lra).
    apply rnd64_is; try lia. assert (E : IZR (65537 * 2 ^ 36) * bpow radix2 (-36) = 65537) by (cbn; lra). rewrite E.
    assert (Q : 7 / 1000000000000 < bpow radix2 (-36 - 1)) by (cbn; lra). apply Rabs_def1; lra.
  - intros k Hk. apply rnd64_int. lia.
  - exact floor_div64.
  - exact floor_months.
  - unfold fields_ok. repeat split; lra || lia.
Qed.

(** ** Turning by nearly the same angle *)
Lemma chord d : (1 - cos d) * 2 <= d * d.
Proof.
  assert (E : (1 - cos d) * 2 = 4 * (sin (d / 2) * sin (d / 2))).
  { pose proof (cos_2a (d / 2)) as C. pose proof (sin2_cos2 (d / 2)) as S. unfold Rsqr in S.
    replace (2 * (d / 2)) with d in C by field. lra. }
  rewrite E. assert (B : Rabs (sin (d / 2)) <= Rabs (d / 2)).
  { pose proof (sin_lip (d / 2) 0) as L. rewrite sin_0, !Rminus_0_r in L. exact L. }
  assert (S : sin (d / 2) * sin (d / 2) <= d / 2 * (d / 2)).
  { apply Rsqr_le_abs_1. exact B. }
  lra.
Qed.

Lemma elemZ_near a b k e v : Rabs (a - (b + 2 * PI * IZR k)) <= e ->
  norm (vsub (mvmul (elemZ a) v) (mvmul (elemZ b) v)) <= e * norm v.
Proof.
  intros H. set (c := b + 2 * PI * IZR k) in *.
  assert (E : elemZ b = elemZ c).
  { unfold elemZ, c. replace (b + 2 * PI * IZR k) with (b + 2 * IZR k * PI) by ring. now rewrite sin_shift, cos_shift. }
  rewrite E. pose proof (Rabs_pos (a - c)) as P. pose proof (chord (a - c)) as C. rewrite cos_minus in C.
  assert (Q : (a - c) * (a - c) <= e * e).
  { change (Rsqr (a - c) <= Rsqr e). apply Rsqr_le_abs_1. rewrite (Rabs_right e) by lra. exact H. }
  pose proof (sin2_cos2 a) as Sa. pose proof (sin2_cos2 c) as Sc. unfold Rsqr in Sa, Sc.
  unfold norm. rewrite <- (sqrt_square e) by lra. rewrite <- sqrt_mult_alt by nra. apply sqrt_le_1_alt.
  destruct v as [x y z]. unfold dot, vsub, mvmul, elemZ. cbn -[Rmult Rplus Rminus cos sin].
  set (ca := cos a) in *. set (sa := sin a) in *. set (cc := cos c) in *. set (sc := sin c) in *. clearbody ca sa cc sc.
  assert (K : (ca - cc) * (ca - cc) + (sa - sc) * (sa - sc) <= e * e) by nra.
  assert (0 <= x * x + y * y) by nra.
  apply Rle_trans with (((ca - cc) * (ca - cc) + (sa - sc) * (sa - sc)) * (x * x + y * y)); [apply Req_le; ring|].
  apply Rle_trans with (e * e * (x * x + y * y)); [apply Rmult_le_compat_r; lra|].
  apply Rmult_le_compat_l; nra.
Qed.

Lemma mjd_order d1 n1 h1 mi1 s1 d2 n2 h2 mi2 s2 mjd : valid_date d1 -> days_from mjd_epoch d1 n1 -> (1810 <= year d1 <= 2190)%Z ->
  0 <= h1 <= 23 -> 0 <= mi1 <= 59 -> 0 <= s1 <= 59 -> valid_date d2 -> days_from mjd_epoch d2 n2 -> (1810 <= year d2 <= 2190)%Z ->
  0 <= h2 <= 23 -> 0 <= mi2 <= 59 -> 0 <= s2 <= 59 ->
  86400 * IZR n1 + h1 * 3600 + mi1 * 60 + s1 + 13 / 10000000 <= 86400 * IZR n2 + h2 * 3600 + mi2 * 60 + s2 ->
  exists x1 x2, convertDatevec2Mjd64 [IZR (year d1); IZR (month d1); IZR (day d1); h1; mi1; s1] mjd = Ret (true, x1) /\
    convertDatevec2Mjd64 [IZR (year d2); IZR (month d2); IZR (day d2); h2; mi2; s2] mjd = Ret (true, x2) /\ x1 < x2.
Proof.
  intros V1 D1 Y1 A1 A2 A3 V2 D2 Y2 B1 B2 B3 L.
  destruct (mjd_tight d1 n1 h1 mi1 s1 mjd V1 D1 Y1 A1 A2 A3) as (x1 & E1 & K1 & _).
  destruct (mjd_tight d2 n2 h2 mi2 s2 mjd V2 D2 Y2 B1 B2 B3) as (x2 & E2 & K2 & _).
  exists x1, x2. split; [exact E1|]. split; [exact E2|]. apply Rabs_le_inv in K1, K2. lra.
Qed.

Lemma ground d n h mi s mjd du : valid_date d -> days_from mjd_epoch d n -> (1810 <= year d <= 2190)%Z ->
  0 <= h <= 23 -> 0 <= mi <= 59 -> 0 <= s <= 59 -> Rabs du <= 1 ->
  exists x g g', convertDatevec2Mjd64 [IZR (year d); IZR (month d); IZR (day d); h; mi; s] mjd = Ret (true, x) /\
    gmsTime (IZR n + (h * 3600 + mi * 60 + s + du) / 86400) = Ret g /\
    gmsTime_f rnd64 (mjdUt1_f rnd64 x du) = Ret g' /\
    forall v, norm (vsub (mvmul (elemZ g') v) (mvmul (elemZ g) v)) <= / 10000000000 * norm v.
Proof.
  intros V D Hy Hh Hmi Hs Hu. destruct (hour_angle d n h mi s mjd du V D Hy Hh Hmi Hs Hu) as (x & g & g' & k & E1 & E2 & E3 & K).
  exists x, g, g'. split; [exact E1|]. split; [exact E2|]. split; [exact E3|]. intros v. now apply (elemZ_near g' g k).
Qed.

Lemma gms_exact m : gmsTime_f (fun x => x) m = gmsTime m.
Proof. unfold gmsTime_f, gmsTime. reflexivity. Qed.
