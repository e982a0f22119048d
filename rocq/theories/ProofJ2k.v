(** Proofs about the J2000 / ECEF rotation. *)
From Coq Require Import Reals ZArith List String Bool Lra Lia.
From Flocq Require Import Core.Raux.
From Verif Require Import Base BaseVec SpecRot SpecEop SpecJ2k ModelDate ModelEop ModelJ2k ProofVec ProofPi ProofEop.
Import ListNotations.
Open Scope R_scope.

(** ** Frame turns *)
Lemma elemX_turn a v : mvmul (elemX a) v = turn ex a v.
Proof.
  destruct v as [x y z]. unfold mvmul, elemX, turn, rotate, ex, vadd, vscale, cross, dot. rewrite cos_neg, sin_neg.
  cbn [vx vy vz m11 m12 m13 m21 m22 m23 m31 m32 m33]. apply v3_eq; ring.
Qed.
Lemma elemY_turn a v : mvmul (elemY a) v = turn ey a v.
Proof.
  destruct v as [x y z]. unfold mvmul, elemY, turn, rotate, ey, vadd, vscale, cross, dot. rewrite cos_neg, sin_neg.
  cbn [vx vy vz m11 m12 m13 m21 m22 m23 m31 m32 m33]. apply v3_eq; ring.
Qed.
Lemma elemZ_turn a v : mvmul (elemZ a) v = turn ez a v.
Proof.
  destruct v as [x y z]. unfold mvmul, elemZ, turn, rotate, ez, vadd, vscale, cross, dot. rewrite cos_neg, sin_neg.
  cbn [vx vy vz m11 m12 m13 m21 m22 m23 m31 m32 m33]. apply v3_eq; ring.
Qed.

Lemma turn_rotation n a A : dot n n = 1 -> (forall v, mvmul A v = turn n a v) -> is_rotation A.
Proof.
  intros Hn H. replace A with (axis_matrix n (- a)); [now apply axis_matrix_rotation|].
  apply mat3_ext. intros v. rewrite axis_matrix_rotate, H. reflexivity.
Qed.

Lemma elem_rotation a : is_rotation (elemX a) /\ is_rotation (elemY a) /\ is_rotation (elemZ a).
Proof.
  split; [|split].
  - apply (turn_rotation ex a); [unfold dot; cbn; ring|apply elemX_turn].
  - apply (turn_rotation ey a); [unfold dot; cbn; ring|apply elemY_turn].
  - apply (turn_rotation ez a); [unfold dot; cbn; ring|apply elemZ_turn].
Qed.

(** ** Angles *)
Lemma arcs_inv x : x / Arcs = x * arcsec.
Proof. unfold Arcs, arcsec. pose proof PI_neq0. field. auto. Qed.

Lemma rev_angle : 1296000 * arcsec = 2 * PI.
Proof. unfold arcsec. field. Qed.

Lemma sin_shift x k : sin (x + 2 * IZR k * PI) = sin x.
Proof.
  destruct k as [|p|p].
  - f_equal. ring.
  - rewrite <- (sin_period x (Pos.to_nat p)). f_equal. rewrite INR_IZR_INZ, positive_nat_Z. reflexivity.
  - rewrite <- (sin_period (x + 2 * IZR (Z.neg p) * PI) (Pos.to_nat p)). f_equal.
    rewrite INR_IZR_INZ, positive_nat_Z. change (Z.neg p) with (- Z.pos p)%Z. rewrite opp_IZR. ring.
Qed.
Lemma cos_shift x k : cos (x + 2 * IZR k * PI) = cos x.
Proof.
  destruct k as [|p|p].
  - f_equal. ring.
  - rewrite <- (cos_period x (Pos.to_nat p)). f_equal. rewrite INR_IZR_INZ, positive_nat_Z. reflexivity.
  - rewrite <- (cos_period (x + 2 * IZR (Z.neg p) * PI) (Pos.to_nat p)). f_equal.
    rewrite INR_IZR_INZ, positive_nat_Z. change (Z.neg p) with (- Z.pos p)%Z. rewrite opp_IZR. ring.
Qed.

Lemma fmodc_ok x y : 0 < y -> exists k, fmodc x y = Ret (x - IZR k * y) /\
  - y < x - IZR k * y < y /\ (0 <= x -> 0 <= x - IZR k * y) /\ (x <= 0 -> x - IZR k * y <= 0).
Proof.
  intros Hy. unfold fmodc. destruct (Req_EM_T y 0); [lra|]. exists (Ztrunc (x / y)). split; [reflexivity|].
  set (q := x / y). assert (E : x - IZR (Ztrunc q) * y = (q - IZR (Ztrunc q)) * y) by (unfold q; field; lra).
  assert (Ex : x = q * y) by (unfold q; field; lra).
  rewrite E. clearbody q. rewrite Ex. clear E Ex.
  destruct (Rlt_le_dec q 0) as [Q|Q].
  - rewrite Ztrunc_ceil by lra. pose proof (Zceil_ub q). pose proof (Zceil_lb q).
    assert (q * y < 0) by nra. split; [split; nra|]. split; intros; [lra|nra].
  - rewrite Ztrunc_floor by lra. pose proof (Zfloor_lb q). pose proof (Zfloor_ub q).
    split; [split; nra|]. split; intros; [nra|].
    assert (q = 0) by nra. subst q. rewrite (Zfloor_IZR 0). lra.
Qed.

Lemma reduceArg_ok x : exists k, reduceArg x = Ret (x - IZR k * 1296000) /\ 0 <= x - IZR k * 1296000 < 1296000.
Proof.
  unfold reduceArg. replace (360 * 3600) with 1296000 by lra.
  destruct (fmodc_ok x 1296000) as (k & -> & B & P & N); [lra|]. cbn [bind].
  destruct (Rlt_dec (x - IZR k * 1296000) 0).
  - exists (k - 1)%Z. rewrite minus_IZR. split; [f_equal; ring|]. split; lra.
  - exists k. split; [reflexivity|lra].
Qed.

(** ** Nutation *)
Lemma nutation_fold T l lp F D Om kl klp kF kD kO :
  l = arg_l T - IZR kl * 1296000 -> lp = arg_lp T - IZR klp * 1296000 -> F = arg_F T - IZR kF * 1296000 ->
  D = arg_D T - IZR kD * 1296000 -> Om = arg_Om T - IZR kO * 1296000 ->
  forall tab s, fold_left (nutationStep l lp F D Om T) tab s =
    (fst s + series (term_psi T) tab, snd s + series (term_eps T) tab).
Proof.
  intros -> -> -> -> ->. induction tab as [|c tab IH]; intros s.
  - destruct s. cbn. unfold series, Rsum. cbn. f_equal; ring.
  - cbn [fold_left]. rewrite IH. clear IH. unfold series, Rsum. cbn [map fold_right].
    fold (Rsum (map (term_psi T) tab)). fold (Rsum (map (term_eps T) tab)).
    destruct c as [[[[[[[[c0 c1] c2] c3] c4] c5] c6] c7] c8].
    unfold nutationStep, term_psi, term_eps, term_arg. cbn [fst snd].
    rewrite arcs_inv.
    replace ((IZR c0 * (arg_l T - IZR kl * 1296000) + IZR c1 * (arg_lp T - IZR klp * 1296000) +
      IZR c2 * (arg_F T - IZR kF * 1296000) + IZR c3 * (arg_D T - IZR kD * 1296000) +
      IZR c4 * (arg_Om T - IZR kO * 1296000)) * arcsec)
    with ((IZR c0 * arg_l T + IZR c1 * arg_lp T + IZR c2 * arg_F T + IZR c3 * arg_D T + IZR c4 * arg_Om T) * arcsec
       + 2 * IZR (- (c0 * kl + c1 * klp + c2 * kF + c3 * kD + c4 * kO)) * PI).
    + rewrite sin_shift, cos_shift. f_equal; ring.
    + rewrite opp_IZR, !plus_IZR, !mult_IZR. replace PI with (1296000 * arcsec / 2) by (rewrite rev_angle; lra). lra.
Qed.

Definition dpsi_of (T : R) : R := 0.00001 * series (term_psi T) nutationTable * arcsec.
Definition deps_of (T : R) : R := 0.00001 * series (term_eps T) nutationTable * arcsec.

Lemma nutationAngles_ok mjd : let T := centuries mjd in
  nutationAngles mjd = Ret (true, (dpsi_of T, deps_of T)).
Proof.
  intros T. unfold nutationAngles, mjdJ2000. fold (centuries mjd). fold T.
  destruct (reduceArg_ok (arg_l T)) as (kl & El & _), (reduceArg_ok (arg_lp T)) as (klp & Elp & _),
    (reduceArg_ok (arg_F T)) as (kF & EF & _), (reduceArg_ok (arg_D T)) as (kD & ED & _),
    (reduceArg_ok (arg_Om T)) as (kO & EO & _).
  replace (485866.733 + (1325 * (360 * 3600) + 715922.633) * T + 31.310 * (T * T) + 0.064 * (T * T * T))
    with (arg_l T) by (unfold arg_l; lra).
  replace (1287099.804 + (99 * (360 * 3600) + 1292581.224) * T - 0.577 * (T * T) - 0.012 * (T * T * T))
    with (arg_lp T) by (unfold arg_lp; lra).
  replace (335778.877 + (1342 * (360 * 3600) + 295263.137) * T - 13.257 * (T * T) + 0.011 * (T * T * T))
    with (arg_F T) by (unfold arg_F; lra).
  replace (1072261.307 + (1236 * (360 * 3600) + 1105601.328) * T - 6.891 * (T * T) + 0.019 * (T * T * T))
    with (arg_D T) by (unfold arg_D; lra).
  replace (450160.280 - (5 * (360 * 3600) + 482890.539) * T + 7.455 * (T * T) + 0.008 * (T * T * T))
    with (arg_Om T) by (unfold arg_Om; lra).
  rewrite El, Elp, EF, ED, EO. cbn [bind].
  rewrite (nutation_fold T _ _ _ _ _ kl klp kF kD kO) by reflexivity. cbn [fst snd].
  rewrite !Rplus_0_l, !arcs_inv. reflexivity.
Qed.

(** Bounds: triangle inequality. *)
Definition zabs_sum (f : Z * Z * Z * Z * Z * Z * Z * Z * Z -> Z) l : Z :=
  fold_right (fun c s => (Z.abs (f c) + s)%Z) 0%Z l.
Definition c5 (c : Z * Z * Z * Z * Z * Z * Z * Z * Z) : Z := let '(_,_,_,_,_,x,_,_,_) := c in x.
Definition c6 (c : Z * Z * Z * Z * Z * Z * Z * Z * Z) : Z := let '(_,_,_,_,_,_,x,_,_) := c in x.
Definition c7 (c : Z * Z * Z * Z * Z * Z * Z * Z * Z) : Z := let '(_,_,_,_,_,_,_,x,_) := c in x.
Definition c8 (c : Z * Z * Z * Z * Z * Z * Z * Z * Z) : Z := let '(_,_,_,_,_,_,_,_,x) := c in x.

Lemma abs_term (p q : Z) T s : Rabs s <= 1 -> Rabs ((IZR p + IZR q * T) * s) <= IZR (Z.abs p) + IZR (Z.abs q) * Rabs T.
Proof.
  intros Hs. rewrite Rabs_mult. pose proof (Rabs_pos (IZR p + IZR q * T)).
  pose proof (Rabs_triang (IZR p) (IZR q * T)) as Tr. rewrite Rabs_mult in Tr. rewrite !abs_IZR.
  pose proof (Rabs_pos s). nra.
Qed.

Lemma sin_abs x : Rabs (sin x) <= 1. Proof. apply Rabs_le. apply SIN_bound. Qed.
Lemma cos_abs x : Rabs (cos x) <= 1. Proof. apply Rabs_le. apply COS_bound. Qed.

Lemma series_bound T l :
  Rabs (series (term_psi T) l) <= IZR (zabs_sum c5 l) + IZR (zabs_sum c6 l) * Rabs T /\
  Rabs (series (term_eps T) l) <= IZR (zabs_sum c7 l) + IZR (zabs_sum c8 l) * Rabs T.
Proof.
  induction l as [|c l [I1 I2]]; [unfold series, Rsum; cbn; rewrite Rabs_R0; lra|].
  unfold series, Rsum in *. cbn [map fold_right zabs_sum].
  set (s1 := fold_right Rplus 0 (map (term_psi T) l)) in *. set (s2 := fold_right Rplus 0 (map (term_eps T) l)) in *.
  clearbody s1 s2. fold (zabs_sum c5 l). fold (zabs_sum c6 l). fold (zabs_sum c7 l). fold (zabs_sum c8 l).
  rewrite !plus_IZR.
  set (z5 := IZR (zabs_sum c5 l)) in *. set (z6 := IZR (zabs_sum c6 l)) in *.
  set (z7 := IZR (zabs_sum c7 l)) in *. set (z8 := IZR (zabs_sum c8 l)) in *. clearbody z5 z6 z7 z8.
  assert (A : Rabs (term_psi T c) <= IZR (Z.abs (c5 c)) + IZR (Z.abs (c6 c)) * Rabs T).
  { destruct c as [[[[[[[[a0 a1] a2] a3] a4] a5] a6] a7] a8]. cbn. apply abs_term, sin_abs. }
  assert (B : Rabs (term_eps T c) <= IZR (Z.abs (c7 c)) + IZR (Z.abs (c8 c)) * Rabs T).
  { destruct c as [[[[[[[[a0 a1] a2] a3] a4] a5] a6] a7] a8]. cbn. apply abs_term, cos_abs. }
  pose proof (Rabs_triang (term_psi T c) s1). pose proof (Rabs_triang (term_eps T c) s2).
  split; lra.
Qed.

Lemma table_sums : zabs_sum c5 nutationTable = 1943680%Z /\ zabs_sum c6 nutationTable = 1823%Z /\
  zabs_sum c7 nutationTable = 1007620%Z /\ zabs_sum c8 nutationTable = 141%Z.
Proof. repeat split; vm_compute; reflexivity. Qed.

Lemma arcsec_pos : 0 < arcsec.
Proof. unfold arcsec. pose proof PI_RGT_0. lra. Qed.

Lemma scale_bound s b : Rabs s <= b -> Rabs (0.00001 * s * arcsec) <= 0.00001 * b * arcsec.
Proof.
  intros H. pose proof arcsec_pos. rewrite !Rabs_mult, (Rabs_right 0.00001), (Rabs_right arcsec) by lra. nra.
Qed.

Lemma nutation_bounded mjd : exists dpsi deps, nutationAngles mjd = Ret (true, (dpsi, deps)) /\
  Rabs dpsi <= (19.4368 + 0.01823 * Rabs (centuries mjd)) * arcsec /\
  Rabs deps <= (10.0762 + 0.00141 * Rabs (centuries mjd)) * arcsec.
Proof.
  rewrite nutationAngles_ok. do 2 eexists. split; [reflexivity|]. set (T := centuries mjd).
  destruct (series_bound T nutationTable) as [B1 B2]. destruct table_sums as (S5 & S6 & S7 & S8).
  rewrite S5, S6 in B1. rewrite S7, S8 in B2. apply scale_bound in B1, B2.
  split; [eapply Rle_trans; [exact B1|]|eapply Rle_trans; [exact B2|]]. all: apply Req_le; lra.
Qed.

(** The main terms and the rest. *)
Definition mainRow (c : Z * Z * Z * Z * Z * Z * Z * Z * Z) : bool := Z.leb 10000 (Z.abs (c5 c)).

Lemma series_filter f p l : series f l = series f (filter p l) + series f (filter (fun c => negb (p c)) l).
Proof.
  induction l as [|c l IH]; [unfold series, Rsum; cbn; lra|]. unfold series, Rsum in *. cbn [filter map fold_right].
  rewrite IH. destruct (p c); cbn [negb map fold_right]; ring.
Qed.

Lemma main_rows : filter mainRow nutationTable =
  [(0,0,0,0,1,-1719960,-1742,920250,89); (0,0,0,0,2,20620,2,-8950,5); (0,0,2,-2,2,-131870,-16,57360,-31);
   (0,1,0,0,0,14260,-34,540,-1); (0,0,2,0,2,-22740,-2,9770,-5)]%Z.
Proof. vm_compute. reflexivity. Qed.

Lemma rest_sums : let l := filter (fun c => negb (mainRow c)) nutationTable in
  zabs_sum c5 l = 34230%Z /\ zabs_sum c6 l = 27%Z /\ zabs_sum c7 l = 10750%Z /\ zabs_sum c8 l = 10%Z.
Proof. repeat split; vm_compute; reflexivity. Qed.

Lemma main_psi_series T : series (term_psi T) (filter mainRow nutationTable) = 100000 * main_psi T.
Proof.
  rewrite main_rows. unfold series, Rsum, term_psi, term_arg, main_psi. cbn [map fold_right].
  rewrite !Rmult_0_l, !Rplus_0_l, !Rmult_1_l, ?Rplus_0_r.
  replace (2 * arg_F T + -2 * arg_D T + 2 * arg_Om T) with (2 * arg_F T - 2 * arg_D T + 2 * arg_Om T) by ring. lra.
Qed.
Lemma main_eps_series T : series (term_eps T) (filter mainRow nutationTable)
  = 100000 * main_eps T + (540 - T) * cos (arg_lp T * arcsec).
Proof.
  rewrite main_rows. unfold series, Rsum, term_eps, term_arg, main_eps. cbn [map fold_right].
  rewrite !Rmult_0_l, !Rplus_0_l, !Rmult_1_l, ?Rplus_0_r.
  replace (2 * arg_F T + -2 * arg_D T + 2 * arg_Om T) with (2 * arg_F T - 2 * arg_D T + 2 * arg_Om T) by ring. lra.
Qed.

Lemma nutation_main mjd : let T := centuries mjd in
  exists dpsi deps, nutationAngles mjd = Ret (true, (dpsi, deps)) /\
  Rabs (dpsi - main_psi T * arcsec) <= (0.3423 + 0.00027 * Rabs T) * arcsec /\
  Rabs (deps - main_eps T * arcsec) <= (0.1129 + 0.00011 * Rabs T) * arcsec.
Proof.
  intros T. rewrite nutationAngles_ok. do 2 eexists. split; [reflexivity|]. fold T. unfold dpsi_of, deps_of.
  rewrite (series_filter (term_psi T) mainRow), (series_filter (term_eps T) mainRow), main_psi_series, main_eps_series.
  destruct (series_bound T (filter (fun c => negb (mainRow c)) nutationTable)) as [B1 B2].
  destruct rest_sums as (S5 & S6 & S7 & S8). rewrite S5, S6 in B1. rewrite S7, S8 in B2.
  set (r1 := series (term_psi T) _) in *. set (r2 := series (term_eps T) _) in *. clearbody r1 r2.
  pose proof (abs_term 540 (-1) T (cos (arg_lp T * arcsec)) (cos_abs _)) as B3. cbn [Z.abs] in B3.
  assert (B4 : Rabs ((540 - T) * cos (arg_lp T * arcsec) + r2) <= 11290 + 11 * Rabs T).
  { replace (540 - T) with (540 + -1 * T) by ring. eapply Rle_trans; [apply Rabs_triang|lra]. }
  apply scale_bound in B1, B4.
  split.
  - match goal with |- Rabs ?x <= _ => replace x with (0.00001 * r1 * arcsec) by lra end.
    eapply Rle_trans; [exact B1|apply Req_le; lra].
  - match goal with |- Rabs ?x <= _ =>
      replace x with (0.00001 * ((540 - T) * cos (arg_lp T * arcsec) + r2) * arcsec) by lra end.
    eapply Rle_trans; [exact B4|apply Req_le; lra].
Qed.

(** ** Sidereal time *)
Lemma gms_range mjd : exists g, gmsTime mjd = Ret g /\ 0 <= g < 2 * PI.
Proof.
  unfold gmsTime. eexists. split; [reflexivity|]. set (x := _ / 86400).
  pose proof (floor_frac x). pose proof PI_RGT_0. nra.
Qed.

Lemma gms_gmst82 mjd : exists g k e, gmsTime mjd = Ret g /\
  g = 2 * PI * (gmst82 (centuries mjd) / 86400 - IZR k + e) /\ Rabs e <= / 10 ^ 14.
Proof.
  unfold gmsTime, mjdJ2000. fold (centuries mjd).
  set (d := Zfloor mjd). unfold Rfloor at 1 2. fold d.
  pose proof (floor_frac mjd) as F. unfold Rfloor in F. fold d in F.
  set (f := mjd - IZR d) in *. assert (M : mjd = IZR d + f) by (unfold f; ring).
  set (gm := _ + _ * centuries mjd * centuries mjd).
  exists (2 * PI * (gm / 86400 - Rfloor (gm / 86400))), (Zfloor (gm / 86400) + (d - 51544))%Z,
    ((1.002737909350795 - 1 - 8640184.812866 / 36525 / 86400) * f).
  split; [reflexivity|]. split.
  - f_equal. unfold Rfloor. rewrite plus_IZR, minus_IZR.
    assert (E : gm / 86400 = gmst82 (centuries mjd) / 86400 - (IZR d - 51544)
      + (1.002737909350795 - 1 - 8640184.812866 / 36525 / 86400) * f); [|rewrite E; ring].
    unfold gm, gmst82, centuries. rewrite M. lra.
  - rewrite Rabs_mult, (Rabs_right f) by lra.
    assert (C : Rabs (1.002737909350795 - 1 - 8640184.812866 / 36525 / 86400) <= / 10 ^ 14) by (apply Rabs_le; lra).
    pose proof (Rabs_pos (1.002737909350795 - 1 - 8640184.812866 / 36525 / 86400)). nra.
Qed.

Lemma obliquity_ok mjd : meanObliquity mjd = obliquity (centuries mjd).
Proof. unfold meanObliquity, obliquity, rad, mjdJ2000, arcsec. fold (centuries mjd). lra. Qed.

Lemma gha_ok ut1 tt M : exists R g dpsi deps,
  computeGreenwichHourAngle ut1 tt M = Ret (true, R) /\ gmsTime ut1 = Ret g /\
  nutationAngles tt = Ret (true, (dpsi, deps)) /\
  forall v, mvmul R v = turn ez (g + dpsi * cos (obliquity (centuries tt))) v.
Proof.
  unfold computeGreenwichHourAngle. destruct (gms_range ut1) as (g & -> & _). rewrite nutationAngles_ok.
  cbn [bind negb]. set (a := g + _). destruct (fmodc_ok a (2 * PI)) as (k & -> & _); [pose proof PI_RGT_0; lra|].
  cbn [bind]. do 4 eexists. split; [reflexivity|]. split; [reflexivity|]. split; [reflexivity|].
  intros v. rewrite elemZ_turn. unfold a. rewrite obliquity_ok. unfold turn, rotate.
  match goal with |- context [- (?x - IZR k * (2 * PI))] =>
    replace (- (x - IZR k * (2 * PI))) with (- x + 2 * IZR k * PI) by ring end.
  now rewrite sin_shift, cos_shift.
Qed.

(** ** Precession *)
Lemma precession_ok tt M : let T := centuries tt in
  exists R, computePrecession mjdJ2000 tt M = (true, R) /\
  forall v, mvmul R v = turn ez (- prec_z T) (turn ey (prec_theta T) (turn ez (- prec_zeta T) v)).
Proof.
  intros T. unfold computePrecession.
  eexists. split; [reflexivity|]. intros v. rewrite !mvmul_mmul, !elemZ_turn, elemY_turn, !arcs_inv.
  assert (Z0 : (mjdJ2000 - mjdJ2000) / 36525 = 0) by (unfold Rdiv; ring).
  assert (Z1 : (tt - mjdJ2000) / 36525 = T) by reflexivity.
  rewrite !Z0, !Z1. clearbody T. unfold prec_z, prec_theta, prec_zeta.
  f_equal; [lra|]. f_equal; [lra|]. f_equal. lra.
Qed.

Lemma nutation_ok tt M : let T := centuries tt in
  exists R dpsi deps, computeNutation tt M = Ret (true, R) /\ nutationAngles tt = Ret (true, (dpsi, deps)) /\
  forall v, mvmul R v = turn ex (- obliquity T - deps) (turn ez (- dpsi) (turn ex (obliquity T) v)).
Proof.
  intros T. unfold computeNutation. rewrite nutationAngles_ok. cbn [bind negb]. do 3 eexists.
  split; [reflexivity|]. split; [reflexivity|]. intros v.
  now rewrite !mvmul_mmul, !elemX_turn, elemZ_turn, obliquity_ok.
Qed.

Lemma polar_ok x y M : exists R, polarRotation x y M = (true, R) /\
  forall v, mvmul R v = turn ey (- x) (turn ex (- y) v).
Proof.
  unfold polarRotation. eexists. split; [reflexivity|]. intros v. now rewrite mvmul_mmul, elemY_turn, elemX_turn.
Qed.

(** ** The whole rotation *)
Definition j2k_angles (st : RotState) (o : EopOut) (mjd : R) (A : mat3) : Prop :=
  let tt := mjd + (32.184 + o_tai o) / 86400 in
  let ut1 := mjd + o_ut1 o / 86400 in
  let T := centuries tt in
  exists g dpsi deps, gmsTime ut1 = Ret g /\ nutationAngles tt = Ret (true, (dpsi, deps)) /\
    forall v, mvmul A v =
      turn ey (- o_xPole o) (turn ex (- o_yPole o)
        (turn ez (g + dpsi * cos (obliquity T))
          (turn ex (- obliquity T - deps) (turn ez (- dpsi) (turn ex (obliquity T)
            (turn ez (- prec_z T) (turn ey (prec_theta T) (turn ez (- prec_zeta T) v)))))))).

Lemma j2k_cases st date : (* one case analysis for both functions *)
  ((List.length date <> 6%nat \/
    exists mjd, convertDatevec2Mjd date 0 = Ret (false, mjd) \/
      (convertDatevec2Mjd date 0 = Ret (true, mjd) /\ exists o, getCurrentEop st mjd (EO 0 0 0 0 0) = Ret (false, o))) /\
   forall file M, computeRJ2k2Ecef st date file M = Ret (false, M) /\ computeREcef2J2k st date file M = Ret (false, M)) \/
  ((List.length date = 6%nat /\ exists mjd, convertDatevec2Mjd date 0 = Ret (true, mjd) /\
      getCurrentEop st mjd (EO 0 0 0 0 0) = Undef) /\
   forall file M, computeRJ2k2Ecef st date file M = Undef /\ computeREcef2J2k st date file M = Undef) \/
  (List.length date = 6%nat /\ exists mjd o A, convertDatevec2Mjd date 0 = Ret (true, mjd) /\
      getCurrentEop st mjd (EO 0 0 0 0 0) = Ret (true, o) /\
      j2k_angles st o mjd A /\ is_rotation A /\
   forall file M, computeRJ2k2Ecef st date file M = Ret (true, A) /\ computeREcef2J2k st date file M = Ret (true, mtr A)).
Proof.
  unfold computeRJ2k2Ecef, computeREcef2J2k. destruct (Nat.eqb_spec (List.length date) 6) as [L|L]; cbn [negb].
  2: { left. split; [now left|]. auto. }
  destruct (convertDatevec2Mjd date 0) as [[ok mjd]| | | |] eqn:C.
  2-5: exfalso; destruct date as [|y [|m [|d [|h [|mi [|s [|]]]]]]]; try discriminate;
    unfold convertDatevec2Mjd, convertDatevec2Mjd_with in C;
    repeat match type of C with (if ?b then _ else _) = _ => destruct b; try discriminate end.
  cbn [bind]. destruct ok; cbn [negb].
  2: { left. split; [right; exists mjd; now left|]. auto. }
  assert (G : (exists ok o, getCurrentEop st mjd (EO 0 0 0 0 0) = Ret (ok, o)) \/ getCurrentEop st mjd (EO 0 0 0 0 0) = Undef).
  { unfold getCurrentEop, at_. destruct (eopsSet st); cbn [negb]; [|eauto].
    destruct (findIndex _ _); [|eauto].
    repeat match goal with |- context [nth_error ?l ?i] => destruct (nth_error l i); cbn [bind]; [|now right] end.
    eauto. }
  destruct G as [(ok & o & G)|G]; rewrite G; cbn [bind].
  2: { right. left. split; [split; [exact L|exists mjd; split; [reflexivity|exact G]]|]. auto. }
  destruct ok; cbn [negb].
  2: { left. split; [|auto]. right. exists mjd. right. split; [reflexivity|]. exists o. exact G. }
  right. right. split; [exact L|]. exists mjd, o.
  replace (32.184 - - o_tai o) with (32.184 + o_tai o) by ring.
  set (tt := mjd + (32.184 + o_tai o) / 86400). set (ut1 := mjd + o_ut1 o / 86400).
  destruct (precession_ok tt m3zero) as (RP & EP & HP). rewrite EP. cbn [negb].
  destruct (nutation_ok tt m3zero) as (RN & dpsi & deps & EN & EA & HN). rewrite EN. cbn [bind negb].
  destruct (gha_ok ut1 tt m3zero) as (RG & g & dpsi' & deps' & EG & Eg & EA' & HG). rewrite EG. cbn [bind negb].
  assert (dpsi' = dpsi /\ deps' = deps) as [-> ->] by (rewrite EA in EA'; inversion EA'; auto).
  destruct (polar_ok (o_xPole o) (o_yPole o) m3zero) as (RO & EO' & HO). rewrite EO'. cbn [negb].
  exists (mmul (mmul (mmul RO RG) RN) RP). split; [reflexivity|]. split; [exact G|].
  assert (HA : forall v, mvmul (mmul (mmul (mmul RO RG) RN) RP) v =
    turn ey (- o_xPole o) (turn ex (- o_yPole o)
        (turn ez (g + dpsi * cos (obliquity (centuries tt)))
          (turn ex (- obliquity (centuries tt) - deps) (turn ez (- dpsi) (turn ex (obliquity (centuries tt))
            (turn ez (- prec_z (centuries tt)) (turn ey (prec_theta (centuries tt)) (turn ez (- prec_zeta (centuries tt)) v))))))))).
  { intros v. now rewrite !mvmul_mmul, HO, HG, HN, HP. }
  split; [exists g, dpsi, deps; auto|]. split; [|auto].
  repeat apply rotation_mmul.
  - unfold polarRotation in EO'. inversion EO'. apply rotation_mmul; apply elem_rotation.
  - eapply turn_rotation; [|exact HG]. unfold dot; cbn; ring.
  - unfold computeNutation in EN. rewrite EA in EN. cbn [bind negb] in EN. inversion EN.
    repeat apply rotation_mmul; apply elem_rotation.
  - unfold computePrecession in EP. inversion EP. repeat apply rotation_mmul; apply elem_rotation.
Qed.

Lemma j2k_unloaded date f M : (List.length date = 6)%nat ->
  computeRJ2k2Ecef newRotations date f M = Ret (false, M) /\ computeREcef2J2k newRotations date f M = Ret (false, M).
Proof.
  intros L. destruct (j2k_cases newRotations date) as [[_ H]|[[(_ & mjd & _ & H) _]|(_ & mjd & o & A & _ & H & _)]].
  - apply H.
  - discriminate.
  - discriminate.
Qed.

(** Sidereal rate: within two centuries of J2000 a UT1 day is 1.00273790935
    revolutions, up to 2e-10 revolution per day. *)
Lemma gms_rate t1 t2 : Rabs (centuries t1) <= 2 -> Rabs (centuries t2) <= 2 ->
  exists g1 g2 k, gmsTime t1 = Ret g1 /\ gmsTime t2 = Ret g2 /\
  Rabs ((g2 - g1) / (2 * PI) - 1.00273790935 * (t2 - t1) - IZR k) <= 2 / 10 ^ 10 * Rabs (t2 - t1) + 2 / 10 ^ 14.
Proof.
  intros B1 B2. destruct (gms_gmst82 t1) as (g1 & k1 & e1 & E1 & G1 & H1).
  destruct (gms_gmst82 t2) as (g2 & k2 & e2 & E2 & G2 & H2).
  exists g1, g2, (k1 - k2)%Z. split; [exact E1|]. split; [exact E2|].
  rewrite minus_IZR.
  replace ((g2 - g1) / (2 * PI)) with (gmst82 (centuries t2) / 86400 - gmst82 (centuries t1) / 86400 - IZR k2 + IZR k1 + e2 - e1).
  2: { rewrite G1, G2. field. apply PI_neq0. }
  set (a := centuries t1) in *. set (b := centuries t2) in *.
  assert (D : t2 - t1 = 36525 * (b - a)) by (unfold a, b, centuries; field).
  rewrite D. clearbody a b. clear D G1 G2 E1 E2.
  set (q := ((876600 * 3600 + 8640184.812866) / 86400 - 1.00273790935 * 36525 + (0.093104 * (a + b) - 0.0000062 * (a * a + a * b + b * b)) / 86400)).
  replace (gmst82 b / 86400 - gmst82 a / 86400 - IZR k2 + IZR k1 + e2 - e1 - 1.00273790935 * (36525 * (b - a)) - (IZR k1 - IZR k2))
    with (q * (b - a) + (e2 - e1)) by (unfold q, gmst82; lra).
  assert (Q : Rabs q <= 2 / 10 ^ 10 * 36525).
  { assert (A : -2 <= a <= 2) by (apply Rabs_le_inv in B1; lra).
    assert (B : -2 <= b <= 2) by (apply Rabs_le_inv in B2; lra).
    assert (P : 0 <= a * a + a * b + b * b <= 12) by nra.
    unfold q. apply Rabs_le. lra. }
  eapply Rle_trans; [apply Rabs_triang|]. rewrite !Rabs_mult.
  assert (Rabs (e2 - e1) <= 2 / 10 ^ 14).
  { apply Rabs_le_inv in H1, H2. apply Rabs_le. lra. }
  rewrite (Rabs_pos_eq 36525) by lra. pose proof (Rabs_pos (b - a)). nra.
Qed.
