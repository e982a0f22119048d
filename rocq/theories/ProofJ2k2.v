(** Proofs about the J2000-to-Earth-fixed rotation, continued: its geometry. *)
From Coq Require Import Reals ZArith List Lra Lia.
From Coquelicot Require Import Coquelicot.
From Verif Require Import Base BaseVec SpecRot SpecEarth SpecEop ModelDate ModelEop ModelJ2k SpecJ2k ProofVec
  ProofAttitude2 ProofStrapdown ProofJ2k.
Import ListNotations.
Open Scope R_scope.

Lemma turn_turn n a b v : dot n n = 1 -> turn n a (turn n b v) = turn n (a + b) v.
Proof. intros H. unfold turn. rewrite rotate_add by auto. f_equal. ring. Qed.
Lemma turn_0 n v : turn n 0 v = v.
Proof. unfold turn. rewrite Ropp_0. apply rotate_0. Qed.
Lemma turn_back n a v : dot n n = 1 -> turn n (- a) (turn n a v) = v.
Proof. intros H. rewrite turn_turn by auto. replace (- a + a) with 0 by ring. apply turn_0. Qed.
Lemma turn_back' n a v : dot n n = 1 -> turn n a (turn n (- a) v) = v.
Proof. intros H. rewrite turn_turn by auto. replace (a + - a) with 0 by ring. apply turn_0. Qed.
Lemma ux : dot ex ex = 1. Proof. unfold dot, ex; cbn; ring. Qed.
Lemma uy : dot ey ey = 1. Proof. unfold dot, ey; cbn; ring. Qed.
Lemma uz : dot ez ez = 1. Proof. unfold dot, ez; cbn; ring. Qed.

(** ** Nutation *)
Lemma turn_ecliptic e l b a : turn ex a (ecliptic e l b) = ecliptic (e - a) l b.
Proof. unfold turn, ecliptic. rewrite rotate_add by apply ux. f_equal. ring. Qed.

Lemma ecliptic_turn l b a : turn ez a (ecliptic 0 l b) = ecliptic 0 (l - a) b.
Proof.
  unfold turn, ecliptic. rewrite !rotate_0, rotate_ez, cos_neg, sin_neg, cos_minus, sin_minus. apply v3_eq; ring.
Qed.

Lemma nutation_geometry tt M : let e := obliquity (centuries tt) in
  exists N dpsi deps, computeNutation tt M = Ret (true, N) /\ nutationAngles tt = Ret (true, (dpsi, deps)) /\
  forall l b, mvmul N (ecliptic e l b) = ecliptic (e + deps) (l + dpsi) b.
Proof.
  intros e. destruct (nutation_ok tt M) as (N & dpsi & deps & E & A & H). exists N, dpsi, deps. split; [exact E|]. split; [exact A|].
  intros l b. rewrite H. fold e. rewrite turn_ecliptic. replace (e - e) with 0 by ring.
  rewrite ecliptic_turn, turn_ecliptic. f_equal; ring.
Qed.

(** ** The pole of date *)
Lemma ecliptic_of_pole e : ecliptic e (PI/2) (PI/2 - e) = ez.
Proof.
  unfold ecliptic, ez. rewrite rotate_ex, cos_PI2, sin_PI2, Rtrigo1.cos_shift, Rtrigo1.sin_shift.
  pose proof (cs1 e). apply v3_eq; nra.
Qed.

Lemma pole_geometry st date file M A mjd o :
  computeRJ2k2Ecef st date file M = Ret (true, A) -> convertDatevec2Mjd date 0 = Ret (true, mjd) ->
  getCurrentEop st mjd (EO 0 0 0 0 0) = Ret (true, o) ->
  let tt := mjd + (32.184 + o_tai o) / 86400 in
  exists dpsi deps, nutationAngles tt = Ret (true, (dpsi, deps)) /\
  mvmul A (pole_of_date (centuries tt) dpsi deps) =
    V3 (sin (o_xPole o) * cos (o_yPole o)) (- sin (o_yPole o)) (cos (o_xPole o) * cos (o_yPole o)).
Proof.
  intros EA C G tt.
  destruct (j2k_cases st date) as [[_ H]|[[_ H]|(_ & mjd' & o' & A' & C' & G' & J & _ & H)]].
  1,2: destruct (H file M) as [H1 _]; rewrite EA in H1; discriminate.
  rewrite C in C'. injection C' as <-. rewrite G in G'. injection G' as <-.
  destruct (H file M) as [H1 _]. rewrite EA in H1. injection H1 as <-.
  destruct J as (g & dpsi & deps & _ & EN & J). fold tt in EN, J. exists dpsi, deps. split; [exact EN|].
  rewrite J. set (T := centuries tt). unfold pole_of_date.
  rewrite turn_back by apply uz. rewrite turn_back' by apply uy. rewrite turn_back by apply uz.
  rewrite turn_ecliptic. replace (obliquity T - obliquity T) with 0 by ring.
  rewrite ecliptic_turn, turn_ecliptic. replace (PI/2 - dpsi - - dpsi) with (PI/2) by ring.
  replace (0 - (- obliquity T - deps)) with (obliquity T + deps) by ring. rewrite ecliptic_of_pole.
  unfold turn, ez. rewrite rotate_ez, rotate_ex, rotate_ey, !Ropp_involutive. apply v3_eq; ring.
Qed.

(** ** Only UT1, TT and the pole matter *)
Lemma time_scales_only st1 st2 date1 date2 f1 f2 M1 M2 A1 A2 mjd1 mjd2 o1 o2 :
  computeRJ2k2Ecef st1 date1 f1 M1 = Ret (true, A1) -> computeRJ2k2Ecef st2 date2 f2 M2 = Ret (true, A2) ->
  convertDatevec2Mjd date1 0 = Ret (true, mjd1) -> convertDatevec2Mjd date2 0 = Ret (true, mjd2) ->
  getCurrentEop st1 mjd1 (EO 0 0 0 0 0) = Ret (true, o1) -> getCurrentEop st2 mjd2 (EO 0 0 0 0 0) = Ret (true, o2) ->
  mjd1 + o_ut1 o1 / 86400 = mjd2 + o_ut1 o2 / 86400 -> mjd1 + o_tai o1 / 86400 = mjd2 + o_tai o2 / 86400 ->
  o_xPole o1 = o_xPole o2 -> o_yPole o1 = o_yPole o2 -> A1 = A2.
Proof.
  intros E1 E2 C1 C2 G1 G2 U T X Y.
  destruct (j2k_cases st1 date1) as [[_ H]|[[_ H]|(_ & m & o & A & C & G & J1 & _ & H)]].
  1,2: destruct (H f1 M1) as [K _]; rewrite E1 in K; discriminate.
  rewrite C1 in C. injection C as <-. rewrite G1 in G. injection G as <-.
  destruct (H f1 M1) as [K _]. rewrite E1 in K. injection K as <-. clear H.
  destruct (j2k_cases st2 date2) as [[_ H]|[[_ H]|(_ & m & o & A & C & G & J2 & _ & H)]].
  1,2: destruct (H f2 M2) as [K _]; rewrite E2 in K; discriminate.
  rewrite C2 in C. injection C as <-. rewrite G2 in G. injection G as <-.
  destruct (H f2 M2) as [K _]. rewrite E2 in K. injection K as <-. clear H.
  destruct J1 as (g & dpsi & deps & Eg & EN & J1), J2 as (g' & dpsi' & deps' & Eg' & EN' & J2).
  assert (TT : mjd1 + (32.184 + o_tai o1) / 86400 = mjd2 + (32.184 + o_tai o2) / 86400) by lra.
  rewrite U, Eg' in Eg. injection Eg as ->. rewrite TT, EN' in EN. injection EN as -> ->.
  apply mat3_ext. intros v. rewrite J1, J2, X, Y, TT. reflexivity.
Qed.

(** ** Precession rates *)
Lemma precession_rates v M : vec_derive (fun T => mvmul (snd (computePrecession 51544.5 (51544.5 + 36525 * T) M)) v) 0
  (V3 (- (4612.4362 * arcsec * vy v) - 2004.3109 * arcsec * vz v) (4612.4362 * arcsec * vx v) (2004.3109 * arcsec * vx v)).
Proof.
  assert (E : forall T, mvmul (snd (computePrecession 51544.5 (51544.5 + 36525 * T) M)) v
    = turn ez (- prec_z T) (turn ey (prec_theta T) (turn ez (- prec_zeta T) v))).
  { intros T. destruct (precession_ok (51544.5 + 36525 * T) M) as (P & EP & H). change mjdJ2000 with 51544.5 in EP.
    rewrite EP. cbn [snd]. rewrite H. replace (centuries (51544.5 + 36525 * T)) with T by (unfold centuries; field). reflexivity. }
  destruct v as [x y z].
  assert (E' : forall T, mvmul (snd (computePrecession 51544.5 (51544.5 + 36525 * T) M)) (V3 x y z) =
    let a := cos (prec_zeta T) * x - sin (prec_zeta T) * y in
    let b := sin (prec_zeta T) * x + cos (prec_zeta T) * y in
    let a' := cos (prec_theta T) * a - sin (prec_theta T) * z in
    V3 (cos (prec_z T) * a' - sin (prec_z T) * b) (sin (prec_z T) * a' + cos (prec_z T) * b)
       (cos (prec_theta T) * z + sin (prec_theta T) * a)).
  { intros T. rewrite E. unfold turn. rewrite !Ropp_involutive, rotate_ez, rotate_ey, rotate_ez, cos_neg, sin_neg. apply v3_eq; ring. }
  clear E. unfold vec_derive.
  assert (S : forall f g : R -> R, (forall t, f t = g t) -> forall d d' : R, d = d' -> is_derive g 0 d' -> is_derive f 0 d).
  { intros f g H d d' -> K. apply is_derive_ext with g; auto. }
  assert (Z0 : prec_z 0 = 0) by (unfold prec_z; ring). assert (Z1 : prec_zeta 0 = 0) by (unfold prec_zeta; ring).
  assert (Z2 : prec_theta 0 = 0) by (unfold prec_theta; ring).
  split; [|split]; (eapply S; [intros t; cbv beta; rewrite E'; reflexivity| |]);
   [|cbn [vx vy vz]; unfold prec_z, prec_zeta, prec_theta; auto_derive; [auto|reflexivity]
    | |cbn [vx vy vz]; unfold prec_z, prec_zeta, prec_theta; auto_derive; [auto|reflexivity]
    | |cbn [vx vy vz]; unfold prec_z, prec_zeta, prec_theta; auto_derive; [auto|reflexivity]].
  all: rewrite ?Rmult_0_l; cbn [vx vy vz].
  all: repeat match goal with
       | |- context [sin ?a] => replace (sin a) with 0 by (replace a with 0 by ring; symmetry; apply sin_0)
       | |- context [cos ?a] => replace (cos a) with 1 by (replace a with 0 by ring; symmetry; apply cos_0)
       end; lra.
Qed.
