(** Rounding errors of the J2000 / ECEF rotation: the whole function. *)
From Coq Require Import Reals ZArith List String Bool Lra Lia Psatz.
From Flocq Require Import Core.
From Verif Require Import Base BaseVec SpecRot SpecEop SpecEarth SpecCalendar SpecJ2k ModelDate ModelEop ModelJ2k ModelHourFloat ModelJ2kFloat ModelStrapdownFloat SpecFloatOps
  SpecJ2kFloat ProofVec ProofPi ProofDate ProofMjd ProofRnd ProofJ2k ProofStrapdownFloat ProofStrapdownFloat2 ProofGravityFloat ProofHourFloat ProofJ2kFloat ProofJ2kFloat2 ProofJ2kFloat3
  ProofJ2kFloat4.
Import ListNotations.
Open Scope R_scope.

(** ** The exact function *)
Lemma zeta_eq T : (2306.2181 + (1.39656 - 0.000139 * 0) * 0 + (0.30188 - 0.000344 * 0 + 0.017998 * T) * T) * T * arcsec = prec_zeta T.
Proof. unfold prec_zeta. f_equal. lra. Qed.
Lemma z_eq T : prec_zeta T + (0.79280 + 0.000411 * 0 + 0.000205 * T) * T * T * arcsec = prec_z T.
Proof. unfold prec_zeta, prec_z. lra. Qed.
Lemma theta_eq T : (2004.3109 - (0.85330 + 0.000217 * 0) * 0 - (0.42665 + 0.000217 * 0 + 0.041833 * T) * T) * T * arcsec = prec_theta T.
Proof. unfold prec_theta. f_equal. lra. Qed.
Lemma prec_exact tt M : let T := centuries tt in
  computePrecession mjdJ2000 tt M = (true, prec_mat (prec_zeta T) (prec_z T) (prec_theta T)).
Proof.
  intros T. unfold computePrecession, prec_mat.
  assert (Z0 : (mjdJ2000 - mjdJ2000) / 36525 = 0) by (unfold Rdiv; ring).
  assert (Z1 : (tt - mjdJ2000) / 36525 = T) by reflexivity.
  rewrite !Z0, !Z1, !arcs_inv. clearbody T. now rewrite zeta_eq, z_eq, theta_eq.
Qed.

Lemma exact_frame st x o : getCurrentEop st x (EO 0 0 0 0 0) = Ret (true, o) ->
  forall date, List.length date = 6%nat -> convertDatevec2Mjd date 0 = Ret (true, x) ->
  exists A, frame (x + o_ut1 o / 86400) (x + (32.184 + o_tai o) / 86400) (o_xPole o) (o_yPole o) A /\
  forall file M, computeRJ2k2Ecef st date file M = Ret (true, A) /\ computeREcef2J2k st date file M = Ret (true, mtr A).
Proof.
  intros EO' date L EC. set (ut := x + o_ut1 o / 86400). set (tt := x + (32.184 + o_tai o) / 86400).
  destruct (gms_range ut) as (g & Eg & _). set (T := centuries tt).
  destruct (fmodc_ok (g + dpsi_of T * cos (obliquity T)) (2 * PI)) as (k & EM & _); [pose proof PI_RGT_0; lra|].
  eexists. split; [exists g, k; split; [exact Eg|reflexivity]|]. intros file M.
  unfold computeRJ2k2Ecef, computeREcef2J2k. rewrite L. cbn [Nat.eqb negb]. rewrite EC. cbn [bind negb]. rewrite EO'. cbn [bind negb].
  replace (32.184 - - o_tai o) with (32.184 + o_tai o) by ring. fold ut tt. rewrite prec_exact. fold T. cbn [negb].
  unfold computeNutation, computeGreenwichHourAngle. rewrite nutationAngles_ok, Eg. fold T. cbn [bind negb].
  rewrite obliquity_ok. fold T. rewrite EM. cbn [bind negb]. unfold polarRotation. cbn [negb]. split; reflexivity.
Qed.

(** ** Day number *)
Lemma day_close d h mi s : date_ok d h mi s -> exists x x',
  convertDatevec2Mjd [IZR (year d); IZR (month d); IZR (day d); h; mi; s] 0 = Ret (true, x) /\
  convertDatevec2Mjd64 [IZR (year d); IZR (month d); IZR (day d); h; mi; s] 0 = Ret (true, x') /\
  Rabs (x' - x) <= 74 / 10000000000000 /\ Zfloor x' = Zfloor x /\ -19000 <= x <= 122001.
Proof.
  intros (V & Hy & Hh & Hmi & Hs).
  assert (D : days_from mjd_epoch d (mjdZ (year d) (month d) (day d))) by exact (days_from_total _ V).
  destruct (mjd_tight d _ h mi s 0 V D Hy Hh Hmi Hs) as (x' & E' & B & Bn).
  assert (HFd : fields_ok (month d) (day d) h mi s).
  { destruct V as (V1 & V2 & _). pose proof (month_length_bounds (year d) (month d)). unfold fields_ok. repeat split; lra || lia. }
  set (n := mjdZ (year d) (month d) (day d)) in *.
  exists (IZR n + (h * 3600 + mi * 60 + s) / 86400), x'. split; [now apply conv_exact|]. split; [exact E'|]. split; [exact B|].
  assert (BM : -19000 <= IZR n <= 122000) by (split; apply IZR_le; lia).
  assert (G : IZR n <= x').
  { revert E'. unfold convertDatevec2Mjd64. rewrite (conv_ok rnd64 (2 ^ 40)); auto; try lia.
    - intros E'. injection E' as <-. fold n. destruct (frac_tight h mi s) as [F1 _]; try lra.
      rewrite <- (rnd64_int n) at 1 by lia. apply rnd64_le. lra.
    - intros k Hk. apply rnd64_int. lia.
    - exact floor_div64.
    - exact floor_months. }
  apply Rabs_le_inv in B. split; [|lra].
  assert (F1 : Zfloor x' = n) by (apply Zfloor_imp; rewrite plus_IZR; lra).
  assert (F2 : Zfloor (IZR n + (h * 3600 + mi * 60 + s) / 86400) = n) by (apply Zfloor_imp; rewrite plus_IZR; lra).
  now rewrite F1, F2.
Qed.

(** ** Transposes *)
Lemma close_mtr e A B : 0 <= e -> close_to e A (mvmul B) -> close_to e (mtr A) (mvmul (mtr B)).
Proof.
  intros He H v. set (w := vsub (mvmul (mtr A) v) (mvmul (mtr B) v)).
  assert (E : dot w w = dot (vsub (mvmul A w) (mvmul B w)) v).
  { unfold w, dot, vsub, mvmul, mtr. destruct v as [a b c]. cbn. ring. }
  pose proof (cauchy (vsub (mvmul A w) (mvmul B w)) v) as C. rewrite <- E in C. pose proof (H w) as Hw.
  rewrite <- norm_sq in C. pose proof (norm_nonneg w) as P. pose proof (norm_nonneg v) as Q. rewrite Rabs_right in C by nra.
  destruct (Rle_lt_or_eq_dec 0 (norm w) P) as [L|Z]; [|rewrite <- Z; nra].
  apply (Rmult_le_reg_l (norm w)); [exact L|]. eapply Rle_trans; [exact C|].
  replace (norm w * (e * norm v)) with (e * norm w * norm v) by ring. apply Rmult_le_compat_r; [exact Q|exact Hw].
Qed.

(** ** The rounded function *)
Section Float.
Variable F : FloatOps.
Hypothesis HF : float_ok F.
Hypothesis HR : frnd F = rnd64.
Notation u := u64.

Lemma shift_close x' x a' a : -19000 <= x <= 122001 -> Rabs (x' - x) <= 74 / 10000000000000 -> Rabs a <= 2000 -> Rabs (a' - a) <= 1 / 1000000000 ->
  Rabs (rnd64 (x' + rnd64 (a' / 86400)) - (x + a / 86400)) <= 149 / 10000000000000.
Proof.
  intros Bx Hx Ha Ha'. apply Rabs_le_inv in Hx. apply Rabs_le_inv in Ha. apply Rabs_le_inv in Ha'.
  assert (E1 : Rabs (rnd64 (a' / 86400) - a' / 86400) <= bpow radix2 (0 - 54)).
  { apply rnd64_error; [lia|]. cbn. apply Rabs_def1; lra. }
  apply Rabs_le_inv in E1. assert (Q1 : bpow radix2 (0 - 54) <= / 10000000000000000) by (cbn; lra).
  assert (E : Rabs (rnd64 (x' + rnd64 (a' / 86400)) - (x' + rnd64 (a' / 86400))) <= bpow radix2 (17 - 54)).
  { apply rnd64_error; [lia|]. rewrite bpow_Z by lia. change (2 ^ 17)%Z with 131072%Z. apply Rabs_def1; lra. }
  apply Rabs_le_inv in E. assert (Q : bpow radix2 (17 - 54) <= 73 / 10000000000000) by (cbn; lra).
  apply Rabs_le. lra.
Qed.

Lemma tai_close t : Rabs t <= 1000 -> Rabs (rnd64 (rnd64 32.184 - - t) - (32.184 + t)) <= 1 / 1000000000.
Proof.
  intros Ht. assert (E : ap (frnd F (frnd F 32.184 - - t)) (32.184 - - t) 2000 1033).
  { assert (T : ap (- t) (- t) 0 1000) by (apply ap_exact; now rewrite Rabs_Ropp).
    assert (C : ap 32.184 32.184 0 (33)) by (apply ap_exact, Rabs_le; lra).
    eapply ap_le; [eapply (ap_rnd F HF); eapply ap_sub; [eapply (ap_rnd F HF); exact C|exact T]| |]; num. }
  rewrite HR in E. destruct E as (E & _). replace (32.184 + t) with (32.184 - - t) by ring. eapply Rle_trans; [exact E|]. rewrite u64_val. lra.
Qed.

Lemma whole_close st d h mi s : eop_sane (eops st) -> date_ok d h mi s ->
  let v := [IZR (year d); IZR (month d); IZR (day d); h; mi; s] in
  (exists A A', close_to (/ 10000000000) A' (mvmul A) /\ forall file M,
     computeRJ2k2Ecef st v file M = Ret (true, A) /\ computeREcef2J2k st v file M = Ret (true, mtr A) /\
     computeRJ2k2Ecef_f F st v file M = Ret (true, A') /\ computeREcef2J2k_f F st v file M = Ret (true, mtr A')) \/
  forall file M,
   (computeRJ2k2Ecef st v file M = Ret (false, M) /\ computeREcef2J2k st v file M = Ret (false, M) /\
    computeRJ2k2Ecef_f F st v file M = Ret (false, M) /\ computeREcef2J2k_f F st v file M = Ret (false, M)) \/
   (computeRJ2k2Ecef st v file M = Undef /\ computeREcef2J2k st v file M = Undef /\
    computeRJ2k2Ecef_f F st v file M = Undef /\ computeREcef2J2k_f F st v file M = Undef).
Proof.
  intros HS HD v. destruct (day_close d h mi s HD) as (x & x' & Ex & Ex' & Bx & Fl & Rx). fold v in Ex, Ex'.
  pose proof (eop_close F HF st x' x HS Fl Bx) as EC.
  assert (L : List.length v = 6%nat) by reflexivity. clearbody v. unfold convertDatevec2Mjd64 in Ex'. rewrite <- HR in Ex'.
  destruct (getCurrentEop st x (EO 0 0 0 0 0)) as [[[] o]| | | |] eqn:EO'; try contradiction.
  - left. destruct EC as (o' & Eo & Et & Bt & Px & Py & (Pu & Bu)).
    destruct (exact_frame st x o EO' v L Ex) as (A & FA & EA).
    assert (PU : Rabs (frnd F (x' + frnd F (o_ut1 o' / 86400)) - (x + o_ut1 o / 86400)) <= 149 / 10000000000000).
    { rewrite HR. apply shift_close; auto; [lra|]. eapply Rle_trans; [exact Pu|]. rewrite u64_val. lra. }
    assert (PT : Rabs (frnd F (x' + frnd F (frnd F (frnd F 32.184 - - o_tai o') / 86400)) - (x + (32.184 + o_tai o) / 86400)) <= 149 / 10000000000000).
    { rewrite HR, Et. apply shift_close; auto; [|now apply tai_close]. apply Rabs_le_inv in Bt. apply Rabs_le. lra. }
    apply Rabs_le_inv in Bt. apply Rabs_le_inv in Bu.
    destruct (frame_close F HF (frnd F (x' + frnd F (o_ut1 o' / 86400))) (x + o_ut1 o / 86400)
      (frnd F (x' + frnd F (frnd F (frnd F 32.184 - - o_tai o') / 86400))) (x + (32.184 + o_tai o) / 86400)
      (o_xPole o') (o_xPole o) (o_yPole o') (o_yPole o) A) as (A' & EA' & CA); auto; try (apply Rabs_le; lra); [lra|].
    exists A, A'. split; [exact CA|]. intros file M. destruct (EA file M) as (E1 & E2). split; [exact E1|]. split; [exact E2|].
    unfold computeRJ2k2Ecef_f, computeREcef2J2k_f. rewrite L. cbn [Nat.eqb negb]. rewrite Ex'. cbn [bind negb]. rewrite Eo. cbn [bind].
    rewrite EA'. cbn [bind]. split; reflexivity.
  - right. intros file M. left. unfold computeRJ2k2Ecef, computeREcef2J2k, computeRJ2k2Ecef_f, computeREcef2J2k_f.
    rewrite L. cbn [Nat.eqb negb]. rewrite Ex', Ex. cbn [bind negb]. rewrite EC, EO'. cbn [bind negb]. auto.
  - right. intros file M. right. unfold computeRJ2k2Ecef, computeREcef2J2k, computeRJ2k2Ecef_f, computeREcef2J2k_f.
    rewrite L. cbn [Nat.eqb negb]. rewrite Ex', Ex. cbn [bind negb]. rewrite EC, EO'. cbn [bind negb]. auto.
Qed.
End Float.

(** ** Whatever the angles, the result is nearly a rotation *)
Lemma frame_f_rotation F ut tt x y A : float_ok F -> frame_f F ut tt x y = Ret A ->
  exists B, is_rotation B /\ close_to (4 / 10000000000000) A (mvmul B).
Proof.
  intros HF. unfold frame_f, computePrecession_f, computeNutation_f, computeGreenwichHourAngle_f.
  destruct (precessionAngles_f F mjdJ2000 tt) as [[[zeta z] theta]| | | |]; cbn [bind]; try discriminate.
  destruct (nutationAngles_f F tt) as [[dpsi deps]| | | |]; cbn [bind]; try discriminate.
  destruct (gsTime_f F ut tt) as [g| | | |]; cbn [bind]; try discriminate. intros E. injection E as <-.
  eexists. split; [|eapply close_le; [apply (whole_f_close F HF)|rewrite u64_val; lra]]. apply whole_rot.
Qed.

Lemma nearly_rotation F st v file M A : float_ok F ->
  computeRJ2k2Ecef_f F st v file M = Ret (true, A) \/ computeREcef2J2k_f F st v file M = Ret (true, A) ->
  exists B, is_rotation B /\ close_to (4 / 10000000000000) A (mvmul B).
Proof.
  intros HF. unfold computeRJ2k2Ecef_f, computeREcef2J2k_f. destruct (Nat.eqb _ _); cbn [negb]; [|intros [H|H]; discriminate].
  destruct (convertDatevec2Mjd_with (frnd F) v 0) as [[[] x]| | | |]; cbn [bind negb]; try (intros [H|H]; discriminate).
  destruct (getCurrentEop_f F st x) as [[o|]| | | |]; cbn [bind]; try (intros [H|H]; discriminate).
  destruct (frame_f F _ _ _ _) as [B| | | |] eqn:E; cbn [bind]; try (intros [H|H]; discriminate).
  destruct (frame_f_rotation F _ _ _ _ _ HF E) as (Q & HQ & CQ). intros [H|H]; injection H as <-.
  - exists Q. now split.
  - exists (mtr Q). split; [now apply rotation_mtr|]. apply close_mtr; [lra|exact CQ].
Qed.

(** ** Without rounding *)
Lemma Rdivc_Arcs x : Rdivc x (Arcs_f exact_ops) = Ret (x / Arcs).
Proof.
  change (Arcs_f exact_ops) with Arcs. pose proof Arcs_val. unfold Rdivc. destruct (Req_EM_T Arcs 0); [lra|reflexivity].
Qed.
Lemma eop_exact st x : match getCurrentEop st x (EO 0 0 0 0 0) with
  | Ret (true, o) => getCurrentEop_f exact_ops st x = Ret (Some o)
  | Ret (false, _) => getCurrentEop_f exact_ops st x = Ret None
  | Undef => getCurrentEop_f exact_ops st x = Undef
  | _ => False end.
Proof.
  unfold getCurrentEop, getCurrentEop_f. destruct (eopsSet st); cbn [negb]; [|reflexivity].
  destruct (findIndex _ _); [|reflexivity]. unfold at_. cbv zeta.
  repeat match goal with |- context [nth_error ?l ?i] => destruct (nth_error l i); cbn [bind]; [|reflexivity] end.
  rewrite !Rdivc_Arcs. reflexivity.
Qed.
Lemma nutation_exact tt : let T := centuries tt in nutationAngles_f exact_ops tt = Ret (dpsi_of T, deps_of T).
Proof.
  intros T. pose proof (nutationAngles_ok tt) as H. fold T in H. cbv zeta in H. unfold nutationAngles in H. unfold nutationAngles_f. cbv zeta in H |- *.
  cbn [frnd exact_ops]. change (reduceArg_f exact_ops) with reduceArg. change (nutationStep_f exact_ops) with nutationStep.
  repeat match type of H with context [reduceArg ?x] => destruct (reduceArg x) as [?y| | | |]; cbn [bind] in H |- *; try discriminate end.
  rewrite !Rdivc_Arcs. cbn [bind].
  match type of H with Ret (true, ?p) = _ => assert (E : p = (dpsi_of T, deps_of T)) by (injection H as <- <-; reflexivity) end.
  rewrite <- E. match goal with |- Ret (?a / _, ?b / _) = _ => set (p := a); set (q := b) end. exact eq_refl.
Qed.
Lemma precession_exact tt : let T := centuries tt in precessionAngles_f exact_ops mjdJ2000 tt = Ret (prec_zeta T, prec_z T, prec_theta T).
Proof.
  intros T. unfold precessionAngles_f. cbv zeta. cbn [frnd exact_ops]. rewrite !Rdivc_Arcs. cbn [bind].
  assert (Z0 : (mjdJ2000 - mjdJ2000) / 36525 = 0) by (unfold Rdiv; ring).
  assert (Z1 : (tt - mjdJ2000) / 36525 = T) by reflexivity.
  rewrite !Z0, !Z1, !arcs_inv. clearbody T. now rewrite zeta_eq, z_eq, theta_eq.
Qed.
Lemma obliquity_exact tt : meanObliquity_f exact_ops tt = obliquity (centuries tt).
Proof. exact (obliquity_ok tt). Qed.

Lemma frame_exact ut tt x y : exists A, frame ut tt x y A /\ frame_f exact_ops ut tt x y = Ret A.
Proof.
  set (T := centuries tt). destruct (gms_range ut) as (g & Eg & _).
  destruct (fmodc_ok (g + dpsi_of T * cos (obliquity T)) (2 * PI)) as (k & EM & _); [pose proof PI_RGT_0; lra|].
  eexists. split; [exists g, k; split; [exact Eg|reflexivity]|].
  unfold frame_f, computePrecession_f, computeNutation_f, computeGreenwichHourAngle_f, gsTime_f.
  rewrite precession_exact, nutation_exact. cbn [bind fst]. rewrite obliquity_exact. fold T.
  change (gmsTime_f (frnd exact_ops) ut) with (gmsTime ut). rewrite Eg. cbn [bind]. cbn [frnd fcos exact_ops].
  rewrite EM. cbn [bind]. clear EM. fold T. change (mmul_f exact_ops) with mmul. change (elemX_f exact_ops) with elemX. change (elemY_f exact_ops) with elemY.
  change (elemZ_f exact_ops) with elemZ. unfold polarRotation_f. change (mmul_f exact_ops) with mmul. change (elemX_f exact_ops) with elemX. change (elemY_f exact_ops) with elemY.
  unfold whole_mat, prec_mat, nut_mat, pole_mat. generalize (dpsi_of T) (deps_of T) (obliquity T). intros. reflexivity.
Qed.
Lemma frame_unique ut tt x y A B : frame ut tt x y A -> frame ut tt x y B -> A = B.
Proof.
  intros (g & k & Eg & ->) (g2 & k2 & Eg2 & ->). rewrite Eg in Eg2. injection Eg2 as <-.
  unfold whole_mat. do 3 f_equal. unfold elemZ. set (a := g + _).
  replace (a - IZR k * (2 * PI)) with (a + 2 * IZR (- k) * PI) by (rewrite opp_IZR; ring).
  replace (a - IZR k2 * (2 * PI)) with (a + 2 * IZR (- k2) * PI) by (rewrite opp_IZR; ring).
  now rewrite !sin_shift, !cos_shift.
Qed.

Lemma j2k_exact st v file M : computeRJ2k2Ecef_f exact_ops st v file M = computeRJ2k2Ecef st v file M /\ computeREcef2J2k_f exact_ops st v file M = computeREcef2J2k st v file M.
Proof.
  destruct (Nat.eqb_spec (List.length v) 6) as [L|L].
  2: { unfold computeRJ2k2Ecef_f, computeREcef2J2k_f, computeRJ2k2Ecef, computeREcef2J2k. apply Nat.eqb_neq in L. rewrite L. auto. }
  destruct (convertDatevec2Mjd v 0) as [[ok x]| | | |] eqn:C.
  2-5: exfalso; destruct v as [|y [|m [|d [|h [|mi [|s [|]]]]]]]; try discriminate;
    unfold convertDatevec2Mjd, convertDatevec2Mjd_with in C;
    repeat match type of C with (if ?b then _ else _) = _ => destruct b; try discriminate end.
  pose proof (eop_exact st x) as E.
  assert (X : convertDatevec2Mjd_with (frnd exact_ops) v 0 = Ret (ok, x)) by exact C.
  destruct ok.
  2: { unfold computeRJ2k2Ecef_f, computeREcef2J2k_f, computeRJ2k2Ecef, computeREcef2J2k. rewrite L. cbn [Nat.eqb negb]. rewrite X, C. auto. }
  destruct (getCurrentEop st x (EO 0 0 0 0 0)) as [[[] o]| | | |] eqn:G; try contradiction.
  2-3: unfold computeRJ2k2Ecef_f, computeREcef2J2k_f, computeRJ2k2Ecef, computeREcef2J2k; rewrite L; cbn [Nat.eqb negb]; rewrite X, C; cbn [bind negb]; rewrite E, G; auto.
  destruct (exact_frame st x o G v L C) as (A & FA & EA). destruct (EA file M) as (-> & ->).
  unfold computeRJ2k2Ecef_f, computeREcef2J2k_f. rewrite L. cbn [Nat.eqb negb]. rewrite X. cbn [bind negb]. rewrite E. cbn [bind].
  cbn [frnd exact_ops]. replace (32.184 - - o_tai o) with (32.184 + o_tai o) by ring.
  destruct (frame_exact (x + o_ut1 o / 86400) (x + (32.184 + o_tai o) / 86400) (o_xPole o) (o_yPole o)) as (B & FB & ->).
  rewrite (frame_unique _ _ _ _ _ _ FA FB). auto.
Qed.
