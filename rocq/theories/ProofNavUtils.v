(** Lemmas about skewSymmetric and the strapdown dynamics. *)
From Coq Require Import Reals List Lra Lia Psatz.
From Coquelicot Require Import Coquelicot.
From Verif Require Import Base BaseVec SpecRot SpecEarth ModelGravity ModelNavUtils ModelFrames
  ProofVec ProofTrig ProofGravity ProofFrames ProofFrames2.
Import ListNotations.
Open Scope R_scope.

(** ** skewSymmetric *)
Lemma skew_cross : forall v, exists S, skewSymmetric v = (true, S) /\
  (forall w, mvmul S w = cross v w) /\ mtr S = mneg S /\
  (forall T, (forall w, mvmul T w = cross v w) -> T = S).
Proof.
  intros v. eexists. split; [reflexivity|].
  assert (E : forall w, mvmul (M3 0 (- vz v) (vy v) (vz v) 0 (- vx v) (- vy v) (vx v) 0) w = cross v w)
    by (intros; vec_ring).
  split; auto. split; [vec_ring|].
  intros T HT. apply mat3_ext. intros w. now rewrite HT, E.
Qed.

(** ** Dynamics: closed form *)
Lemma esq_e2 : 2 * gp_f - gp_f * gp_f = e2.
Proof. unfold e2. ring. Qed.
Lemma Rpower_3_2 x : 0 < x -> Rpower x (3/2) = x * sqrt x.
Proof.
  intros. replace (3/2) with (1 + /2) by field. rewrite Rpower_plus, Rpower_1, Rpower_sqrt by auto. reflexivity.
Qed.

Definition lat_rate (y : vec3 * vec3) := vx (snd y) / (Mr (vx (fst y)) + vz (fst y)).
Definition lon_rate (y : vec3 * vec3) := vy (snd y) / ((Nr (vx (fst y)) + vz (fst y)) * cos (vx (fst y))).
Definition regular (y : vec3 * vec3) : Prop :=
  Mr (vx (fst y)) + vz (fst y) <> 0 /\ (Nr (vx (fst y)) + vz (fst y)) * cos (vx (fst y)) <> 0.
Definition dyn (y : vec3 * vec3) (dVN gN : vec3) (dt : R) : vec3 * vec3 :=
  let s := sin (vx (fst y)) in let c := cos (vx (fst y)) in
  let vN := vx (snd y) in let vE := vy (snd y) in let vD := vz (snd y) in
  let l := lat_rate y in let o := lon_rate y in
  (V3 l o (- vD),
   V3 (vx dVN / dt + vx gN - (2 * gp_wE * s * vE) + (l * vD) - (o * s * vE))
      (vy dVN / dt + vy gN + (2 * gp_wE * s * vN) + (2 * gp_wE * c * vD) + (o * s * vN) + (o * c * vD))
      (vz dVN / dt + vz gN - (2 * gp_wE * c * vE) - (o * c * vE) - (l * vN))).

Lemma dynamics_ok y dVN gN dt : dt <> 0 -> regular y ->
  strapdownDynamics y dVN gN dt = Ret (dyn y dVN gN dt).
Proof.
  intros Hd [H1 H2]. unfold strapdownDynamics. cbv zeta. rewrite !Rdivc_ok by auto. cbn [bind].
  rewrite esq_e2. fold (W2 (vx (fst y))).
  pose proof (W2_bounds (vx (fst y))). pose proof (sW_pos (vx (fst y))).
  rewrite sqrtc_ok by lra. cbn [bind]. rewrite Rdivc_ok by lra. cbn [bind]. fold (Nr (vx (fst y))).
  rewrite Rpower_3_2 by lra. rewrite Rdivc_ok by (apply Rmult_integral_contrapositive; lra). cbn [bind].
  fold (Mr (vx (fst y))). rewrite !Rdivc_ok by auto. cbn [bind]. reflexivity.
Qed.

Lemma dynamics_inv y dVN gN dt r : strapdownDynamics y dVN gN dt = Ret r -> dt <> 0 /\ regular y.
Proof.
  unfold strapdownDynamics. cbv zeta. destruct (Req_dec dt 0) as [->|Hd]; [now rewrite Rdivc_0|].
  rewrite !Rdivc_ok by auto. cbn [bind].
  rewrite esq_e2. fold (W2 (vx (fst y))).
  pose proof (W2_bounds (vx (fst y))). pose proof (sW_pos (vx (fst y))).
  rewrite sqrtc_ok by lra. cbn [bind]. rewrite Rdivc_ok by lra. cbn [bind]. fold (Nr (vx (fst y))).
  rewrite Rpower_3_2 by lra. rewrite Rdivc_ok by (apply Rmult_integral_contrapositive; lra). cbn [bind].
  fold (Mr (vx (fst y))). intros E. split; auto. split; intros Z; rewrite Z, Rdivc_0 in E.
  - discriminate.
  - unfold Rdivc at 1 in E. destruct (Req_EM_T _ _); cbn [bind] in E; discriminate.
Qed.

Lemma dynamics_form y dVN gN dt r : strapdownDynamics y dVN gN dt = Ret r ->
  dt <> 0 /\ regular y /\ r = dyn y dVN gN dt.
Proof.
  intros E. destruct (dynamics_inv _ _ _ _ _ E) as [H1 H2]. rewrite dynamics_ok in E by auto.
  repeat split; try apply H2; auto. now injection E.
Qed.

Lemma dynamics_dt0 y dVN gN : strapdownDynamics y dVN gN 0 = NonFinite.
Proof. unfold strapdownDynamics. cbv zeta. now rewrite Rdivc_0. Qed.

(** Above -6300 km and off the poles the dynamics are defined. *)
Lemma dynamics_defined : forall lat lon h v dVN gN dt,
  Rabs lat < PI/2 -> -6300000 < h -> dt <> 0 ->
  exists r, strapdownDynamics (V3 lat lon h, v) dVN gN dt = Ret r.
Proof.
  intros lat lon h v dVN gN dt Hl Hh Hd. eexists. apply dynamics_ok; auto.
  apply Rabs_def2 in Hl. assert (0 < cos lat) by (apply cos_gt_0; lra).
  pose proof (Mr_bounds lat). pose proof (Nr_bounds lat) as B. unfold gp_a in B.
  split; cbn [fst snd vx vy vz]; [lra|]. apply Rmult_integral_contrapositive; lra.
Qed.

(** ** C13: kinematics *)
Lemma orth_vec A u v : is_rotation A -> mvmul (mtr A) u = mvmul (mtr A) v -> u = v.
Proof.
  intros H E. apply rotation_matrix in H. destruct H as (H & _).
  rewrite <- (mvmul_id u), <- (mvmul_id v), <- H, !mvmul_mmul, E. reflexivity.
Qed.

Lemma position_kinematics : forall (lat lon h : R -> R) (t lat' lon' h' : R) v dVN gN dt p' v' M r,
  is_derive lat t lat' -> is_derive lon t lon' -> is_derive h t h' -> inside (lat t) (lon t) ->
  strapdownDynamics (V3 (lat t) (lon t) (h t), v) dVN gN dt = Ret (p', v') ->
  (vec_derive (fun u => vec_of (lla2Ecef (lat u) (lon u) (h u) r)) t
     (mvmul (mat_of (computeRNed2Ecef (lat t) (lon t) M)) v)
   <-> V3 lat' lon' h' = p').
Proof.
  intros lat lon h t lat' lon' h' v dVN gN dt p' v' M r D1 D2 D3 I E.
  apply dynamics_form in E. destruct E as (_ & [R1 R2] & E). cbn [fst snd vx vy vz] in R1, R2.
  unfold dyn in E. cbv zeta in E. injection E as Ep _. unfold lat_rate, lon_rate in Ep. cbn [fst snd vx vy vz] in Ep.
  pose proof (lla2Ecef_path lat lon h t lat' lon' h' r D1 D2 D3 I) as P.
  rewrite RN2E_ok by now apply inside_in_range. cbn [mat_of].
  rewrite Ep. split.
  - intros D. pose proof (vec_derive_unique _ _ _ _ D P) as U.
    apply orth_vec in U; [|apply ned_rotation]. rewrite U. cbn [vx vy vz].
    assert (cos (lat t) <> 0) by (intros Z; apply R2; rewrite Z; ring).
    apply v3_eq; [field; auto| |ring]. field. split; auto.
    intros Z; apply R2; rewrite Z; ring.
  - intros U. injection U as -> -> ->.
    match type of P with vec_derive _ _ (mvmul _ ?d) => replace v with d; [exact P|] end.
    assert (cos (lat t) <> 0) by (intros Z; apply R2; rewrite Z; ring).
    destruct v as [vN vE vD]; cbn [vx vy vz]. apply v3_eq; [field; auto| |ring]. field. split; auto.
    intros Z; apply R2; rewrite Z; ring.
Qed.

(** ** C14: velocity *)
Definition w_en (lat lat' lon' : R) : vec3 := V3 (lon' * cos lat) (- lat') (- lon' * sin lat).

Lemma ned_path (lat lon : R -> R) (t lat' lon' : R) :
  is_derive lat t lat' -> is_derive lon t lon' ->
  mat_derive (fun u => mtr (ned_matrix (lat u) (lon u))) t
    (mmul (mtr (ned_matrix (lat t) (lon t))) (snd (skewSymmetric (w_en (lat t) lat' lon')))).
Proof.
  intros D1 D2. pose proof (cs1 (lat t)) as A. pose proof (cs1 (lon t)) as B.
  unfold mat_derive, vec_derive, ned_matrix, mtr, row1, row2, row3, skewSymmetric, mmul, w_en.
  cbn [vx vy vz snd m11 m12 m13 m21 m22 m23 m31 m32 m33].
  assert (A' : cos (lat t) * cos (lat t) = 1 - sin (lat t) * sin (lat t)) by lra.
  split; [|split]; (split; [|split]); (evar_last;
    [ auto_derive; [|reflexivity]; try (repeat split; eexists; eassumption); auto
    | eqR; try (rewD D1); try (rewD D2); ring [A']]).
Qed.

Lemma velocity_newton : forall (lat lon : R -> R) (t : R) p' v h dVN gN dt v' M M',
  is_derive lat t (vx p') -> is_derive lon t (vy p') -> inside (lat t) (lon t) ->
  strapdownDynamics (V3 (lat t) (lon t) h, v) dVN gN dt = Ret (p', v') ->
  exists wen,
    mat_derive (fun u => mat_of (computeRNed2Ecef (lat u) (lon u) M)) t
      (mmul (mat_of (computeRNed2Ecef (lat t) (lon t) M)) (snd (skewSymmetric wen))) /\
    v' = vsub (vadd (vscale (/ dt) dVN) gN)
              (cross (vadd (vscale 2 (mvmul (mat_of (computeREcef2Ned (lat t) (lon t) M')) (V3 0 0 earth_rate))) wen) v).
Proof.
  intros lat lon t p' v h dVN gN dt v' M M' D1 D2 I E.
  apply dynamics_form in E. destruct E as (Hd & _ & E).
  unfold dyn in E. cbv zeta in E. cbn [fst snd vx vy vz] in E. injection E as Ep Ev.
  exists (w_en (lat t) (vx p') (vy p')). 
  rewrite RN2E_ok, RE2N_ok by now apply inside_in_range. cbn [mat_of]. split.
  - pose proof (ned_path lat lon t _ _ D1 D2) as P.
    pose proof (inside_locally _ _ _ _ _ D1 D2 I) as L.
    destruct P as (P1 & P2 & P3). split; [|split].
    + eapply vec_derive_ext_loc; [|exact P1]. generalize L. apply filter_imp. intros u H. now rewrite RN2E_ok.
    + eapply vec_derive_ext_loc; [|exact P2]. generalize L. apply filter_imp. intros u H. now rewrite RN2E_ok.
    + eapply vec_derive_ext_loc; [|exact P3]. generalize L. apply filter_imp. intros u H. now rewrite RN2E_ok.
  - rewrite Ev. rewrite Ep. cbn [vx vy vz].
    set (l := lat_rate _). set (o := lon_rate _).
    replace gp_wE with earth_rate by (unfold gp_wE, earth_rate; field).
    unfold ned_matrix, w_en. destruct v as [vN vE vD], dVN as [x y z], gN as [gx gy gz].
    unfold vsub, vadd, vscale, cross, mvmul; cbn [vx vy vz m11 m12 m13 m21 m22 m23 m31 m32 m33].
    apply v3_eq; field; auto.
Qed.

Lemma coriolis_no_work : forall y dVN gN dt p' v',
  strapdownDynamics y dVN gN dt = Ret (p', v') ->
  dot (snd y) v' = dot (snd y) (vadd (vscale (/ dt) dVN) gN).
Proof.
  intros y dVN gN dt p' v' E. apply dynamics_form in E. destruct E as (Hd & _ & E).
  unfold dyn in E. cbv zeta in E. injection E as _ Ev. rewrite Ev.
  set (l := lat_rate _). set (o := lon_rate _).
  destruct y as [[a b c] [vN vE vD]], dVN as [x y z], gN as [gx gy gz].
  unfold vadd, vscale, dot; cbn [fst snd vx vy vz]. field. auto.
Qed.

(** ** C15: Runge-Kutta *)

Lemma strapdownRk4_eq y dt dVN gN yk : length yk = 6%nat ->
  strapdownRk4 (s6list y) dt dVN gN yk = (y' <- rk4_step y dt dVN gN ;; Ret (true, s6list y')).
Proof.
  intros H. destruct y as [[a b c] [d e f]]. unfold strapdownRk4, s6list; cbn [fst snd vx vy vz]. now rewrite H.
Qed.

Lemma s6_eq (y z : vec3 * vec3) : fst y = fst z -> snd y = snd z -> y = z.
Proof. destruct y, z; cbn; now intros -> ->. Qed.

Lemma half_scale y f dt : s6add y (s6scale (/ 2) (s6scale dt f)) = padd y (pscale (dt * (1/2)) f).
Proof.
  destruct y as [[] []], f as [[] []]. unfold s6add, s6scale, padd, pscale, vadd, vscale; cbn.
  f_equal; apply v3_eq; field.
Qed.
Lemma one_scale y f dt : s6add y (s6scale dt f) = padd y (pscale (dt * 1) f).
Proof. rewrite Rmult_1_r. reflexivity. Qed.

Lemma rk4_sum y f1 f2 f3 f4 dt :
  s6add (s6add (s6add (s6add y (s6scale (1/6) (s6scale dt f1))) (s6scale (1/3) (s6scale dt f2)))
    (s6scale (1/3) (s6scale dt f3))) (s6scale (1/6) (s6scale dt f4)) =
  padd y (pscale (dt / 6) (padd (padd (padd f1 (pscale 2 f2)) (pscale 2 f3)) f4)).
Proof.
  assert (V : forall u a b c d : vec3,
    vadd (vadd (vadd (vadd u (vscale (1/6) (vscale dt a))) (vscale (1/3) (vscale dt b)))
      (vscale (1/3) (vscale dt c))) (vscale (1/6) (vscale dt d)) =
    vadd u (vscale (dt / 6) (vadd (vadd (vadd a (vscale 2 b)) (vscale 2 c)) d))).
  { intros [u1 u2 u3] [a1 a2 a3] [b1 b2 b3] [c1 c2 c3] [d1 d2 d3]. unfold vadd, vscale; cbn [vx vy vz]. apply v3_eq; field. }
  apply s6_eq; [exact (V (fst y) (fst f1) (fst f2) (fst f3) (fst f4))|exact (V (snd y) (snd f1) (snd f2) (snd f3) (snd f4))].
Qed.

Lemma rk4_butcher : forall y dt dVN gN yk y', length yk = 6%nat ->
  (strapdownRk4 (s6list y) dt dVN gN yk = Ret (true, s6list y') <->
   rk4_spec padd pscale (fun y => strapdownDynamics y dVN gN dt) dt y y').
Proof.
  intros y dt dVN gN yk y' H. rewrite strapdownRk4_eq by auto. unfold rk4_step, rk4_spec.
  assert (Inj : forall u v, s6list u = s6list v -> u = v).
  { intros [[] []] [[] []] E. unfold s6list in E; cbn in E. now injection E as -> -> -> -> -> ->. }
  split.
  - destruct (strapdownDynamics y dVN gN dt) as [f1| | | |] eqn:F1; cbn [bind]; try discriminate.
    rewrite half_scale. destruct (strapdownDynamics (padd y (pscale (dt * (1/2)) f1)) dVN gN dt) as [f2| | | |] eqn:F2; cbn [bind]; try discriminate.
    rewrite half_scale. destruct (strapdownDynamics (padd y (pscale (dt * (1/2)) f2)) dVN gN dt) as [f3| | | |] eqn:F3; cbn [bind]; try discriminate.
    rewrite one_scale. destruct (strapdownDynamics (padd y (pscale (dt * 1) f3)) dVN gN dt) as [f4| | | |] eqn:F4; cbn [bind]; try discriminate.
    intros E. exists f1, f2, f3, f4. repeat split; auto.
    assert (E' : forall u v, Ret (true, s6list u) = Ret (true, s6list v) -> u = v).
    { intros u v X. apply Inj. exact (f_equal (fun o => match o with Ret (_, l) => l | _ => [] end) X). }
    apply E' in E. rewrite <- E.
    apply rk4_sum.
  - intros (f1 & f2 & f3 & f4 & F1 & F2 & F3 & F4 & ->). rewrite F1. cbn [bind]. rewrite half_scale, F2. cbn [bind].
    rewrite half_scale, F3. cbn [bind]. rewrite one_scale, F4. cbn [bind]. do 3 f_equal.
    apply rk4_sum.
Qed.

(** Longitude shift. *)
Lemma dynamics_shift k y dVN gN dt : strapdownDynamics (shift k y) dVN gN dt = strapdownDynamics y dVN gN dt.
Proof. reflexivity. Qed.
Lemma shift_add k y z : s6add (shift k y) z = shift k (s6add y z).
Proof. destruct y as [[] []], z as [[] []]. unfold s6add, shift, vadd; cbn. f_equal. apply v3_eq; ring. Qed.

Lemma rk4_longitude : forall k y dt dVN gN yk, length yk = 6%nat ->
  strapdownRk4 (s6list (shift k y)) dt dVN gN yk =
  (r <- strapdownRk4 (s6list y) dt dVN gN yk ;;
   match r with
   | (true, [lat; lon; h; vN; vE; vD]) => Ret (true, [lat; lon + k; h; vN; vE; vD])
   | _ => Ret r
   end).
Proof.
  intros k y dt dVN gN yk H. rewrite !strapdownRk4_eq by auto. unfold rk4_step.
  rewrite dynamics_shift.
  destruct (strapdownDynamics y dVN gN dt) as [f1| | | |]; cbn [bind]; auto.
  rewrite shift_add, dynamics_shift.
  destruct (strapdownDynamics (s6add y (s6scale (/ 2) (s6scale dt f1))) dVN gN dt) as [f2| | | |]; cbn [bind]; auto.
  rewrite shift_add, dynamics_shift.
  destruct (strapdownDynamics (s6add y (s6scale (/ 2) (s6scale dt f2))) dVN gN dt) as [f3| | | |]; cbn [bind]; auto.
  rewrite shift_add, dynamics_shift.
  destruct (strapdownDynamics (s6add y (s6scale dt f3)) dVN gN dt) as [f4| | | |]; cbn [bind]; auto.
  rewrite !shift_add. reflexivity.
Qed.

(** North-south reflection. *)

Lemma Mr_even l : Mr (- l) = Mr l.
Proof. unfold Mr, W2. now rewrite sin_neg, Rmult_opp_opp. Qed.
Lemma Nr_even l : Nr (- l) = Nr l.
Proof. unfold Nr, W2. now rewrite sin_neg, Rmult_opp_opp. Qed.

Lemma regular_mirror y : regular (mirror y) <-> regular y.
Proof.
  unfold regular, mirror, mirrorv; cbn [fst snd vx vy vz]. now rewrite Mr_even, Nr_even, cos_neg.
Qed.
Lemma dyn_mirror y dVN gN dt : dt <> 0 -> regular y ->
  dyn (mirror y) (mirrorv dVN) (mirrorv gN) dt = mirror (dyn y dVN gN dt).
Proof.
  intros Hd [R1 R2]. assert (cos (vx (fst y)) <> 0 /\ Nr (vx (fst y)) + vz (fst y) <> 0).
  { split; intros Z; apply R2; rewrite Z; ring. }
  destruct H as [C0 N0].
  unfold dyn, mirror, mirrorv, lat_rate, lon_rate; cbn [fst snd vx vy vz].
  rewrite Mr_even, Nr_even, cos_neg, sin_neg. f_equal; apply v3_eq; try reflexivity; field; auto.
Qed.
Lemma dynamics_nonfinite y dVN gN dt : ~ (dt <> 0 /\ regular y) -> strapdownDynamics y dVN gN dt = NonFinite.
Proof.
  intros H. destruct (Req_dec dt 0) as [->|Hd]; [apply dynamics_dt0|].
  unfold strapdownDynamics. cbv zeta. rewrite !Rdivc_ok by auto. cbn [bind].
  rewrite esq_e2. fold (W2 (vx (fst y))).
  pose proof (W2_bounds (vx (fst y))). pose proof (sW_pos (vx (fst y))).
  rewrite sqrtc_ok by lra. cbn [bind]. rewrite Rdivc_ok by lra. cbn [bind]. fold (Nr (vx (fst y))).
  rewrite Rpower_3_2 by lra. rewrite Rdivc_ok by (apply Rmult_integral_contrapositive; lra). cbn [bind].
  fold (Mr (vx (fst y))).
  destruct (Req_dec (Mr (vx (fst y)) + vz (fst y)) 0) as [E|E]; [rewrite E, Rdivc_0; reflexivity|].
  rewrite Rdivc_ok by auto. cbn [bind].
  destruct (Req_dec ((Nr (vx (fst y)) + vz (fst y)) * cos (vx (fst y))) 0) as [E'|E']; [rewrite E', Rdivc_0; reflexivity|].
  exfalso. apply H. split; auto. split; auto.
Qed.
Lemma regular_dec y : {regular y} + {~ regular y}.
Proof.
  unfold regular. destruct (Req_EM_T (Mr (vx (fst y)) + vz (fst y)) 0) as [E|E]; [right; tauto|].
  destruct (Req_EM_T ((Nr (vx (fst y)) + vz (fst y)) * cos (vx (fst y))) 0) as [E'|E']; [right; tauto|]. left; auto.
Qed.
Lemma dynamics_mirror y dVN gN dt :
  strapdownDynamics (mirror y) (mirrorv dVN) (mirrorv gN) dt =
  (r <- strapdownDynamics y dVN gN dt ;; Ret (mirror r)).
Proof.
  destruct (Req_EM_T dt 0) as [->|Hd]; [now rewrite !dynamics_dt0|].
  destruct (regular_dec y) as [H|H].
  - rewrite !dynamics_ok by (auto; now apply regular_mirror). cbn [bind]. f_equal. now apply dyn_mirror.
  - rewrite !dynamics_nonfinite; auto; [tauto|]. rewrite regular_mirror. tauto.
Qed.

Lemma mirror_scale k y : s6scale k (mirror y) = mirror (s6scale k y).
Proof. destruct y as [[] []]. unfold s6scale, mirror, mirrorv, vscale; cbn. f_equal; apply v3_eq; ring. Qed.
Lemma mirror_add y z : s6add (mirror y) (mirror z) = mirror (s6add y z).
Proof. destruct y as [[] []], z as [[] []]. unfold s6add, mirror, mirrorv, vadd; cbn. f_equal; apply v3_eq; ring. Qed.

Lemma rk4_mirror : forall y y' dt dVN gN yk, length yk = 6%nat ->
  strapdownRk4 (s6list y) dt dVN gN yk = Ret (true, s6list y') ->
  strapdownRk4 (s6list (mirror y)) dt (mirrorv dVN) (mirrorv gN) yk = Ret (true, s6list (mirror y')).
Proof.
  intros y y' dt dVN gN yk H. rewrite !strapdownRk4_eq by auto. unfold rk4_step.
  rewrite dynamics_mirror.
  destruct (strapdownDynamics y dVN gN dt) as [f1| | | |]; cbn [bind]; try discriminate.
  rewrite !mirror_scale, mirror_add, dynamics_mirror.
  destruct (strapdownDynamics (s6add y (s6scale (/ 2) (s6scale dt f1))) dVN gN dt) as [f2| | | |]; cbn [bind]; try discriminate.
  rewrite !mirror_scale, mirror_add, dynamics_mirror.
  destruct (strapdownDynamics (s6add y (s6scale (/ 2) (s6scale dt f2))) dVN gN dt) as [f3| | | |]; cbn [bind]; try discriminate.
  rewrite !mirror_scale, mirror_add, dynamics_mirror.
  destruct (strapdownDynamics (s6add y (s6scale dt f3)) dVN gN dt) as [f4| | | |]; cbn [bind]; try discriminate.
  intros E. rewrite !mirror_scale, !mirror_add. do 2 f_equal.
  assert (Inj : forall u v, Ret (true, s6list u) = Ret (true, s6list v) -> u = v).
  { intros [[] []] [[] []] X. unfold s6list in X; cbn in X. now injection X as -> -> -> -> -> ->. }
  apply Inj in E. now rewrite E.
Qed.

(** A vehicle at rest whose specific force balances gravity stays at rest. *)
Lemma rk4_rest : forall p dt dVN gN yk, length yk = 6%nat -> dt <> 0 ->
  Rabs (vx p) < PI/2 -> -6300000 < vz p -> dVN = vscale (- dt) gN ->
  strapdownRk4 (s6list (p, v3zero)) dt dVN gN yk = Ret (true, s6list (p, v3zero)).
Proof.
  intros p dt dVN gN yk H Hd Hl Hh ->. apply rk4_butcher; auto.
  assert (R0 : regular (p, v3zero)).
  { apply Rabs_def2 in Hl. assert (0 < cos (vx p)) by (apply cos_gt_0; lra).
    pose proof (Mr_bounds (vx p)). pose proof (Nr_bounds (vx p)) as B. unfold gp_a in B.
    split; cbn [fst snd vx vy vz]; [lra|]. apply Rmult_integral_contrapositive; lra. }
  assert (F : strapdownDynamics (p, v3zero) (vscale (- dt) gN) gN dt = Ret (v3zero, v3zero)).
  { rewrite dynamics_ok by auto. f_equal. destruct R0 as [R1 R2]. cbn [fst snd vx vy vz] in R1, R2.
    assert (C : cos (vx p) <> 0 /\ Nr (vx p) + vz p <> 0) by (split; intros Z; apply R2; rewrite Z; ring).
    unfold dyn, lat_rate, lon_rate, v3zero, vscale; cbn [fst snd vx vy vz].
    f_equal; apply v3_eq; field; tauto. }
  exists (v3zero, v3zero), (v3zero, v3zero), (v3zero, v3zero), (v3zero, v3zero).
  assert (S : forall k, padd (p, v3zero) (pscale k (v3zero, v3zero)) = (p, v3zero)).
  { intros k. destruct p. unfold padd, pscale, vadd, vscale, v3zero; cbn. f_equal; apply v3_eq; ring. }
  rewrite !S. repeat split; auto.
  assert (V : forall u : vec3, u = vadd u (vscale (dt / 6) (vadd (vadd (vadd v3zero (vscale 2 v3zero)) (vscale 2 v3zero)) v3zero))).
  { intros [u1 u2 u3]. unfold vadd, vscale, v3zero; cbn [vx vy vz]. apply v3_eq; field. }
  apply s6_eq; [exact (V p)|exact (V v3zero)].
Qed.

(** ** C16 *)
Lemma rk4_guard : forall y dt dVN gN yk,
  (length y <> 6%nat \/ length yk <> 6%nat -> strapdownRk4 y dt dVN gN yk = Ret (false, yk)) /\
  (forall ok yk', strapdownRk4 y dt dVN gN yk = Ret (ok, yk') ->
     (ok = true <-> length y = 6%nat /\ length yk = 6%nat) /\ length yk' = length yk /\ (ok = false -> yk' = yk)).
Proof.
  intros y dt dVN gN yk. split.
  - intros H. destruct y as [|a [|b [|c [|d [|e [|f [|]]]]]]]; auto.
    unfold strapdownRk4. destruct (Nat.eqb_spec (length yk) 6); auto. cbn in H. lia.
  - intros ok yk' E.
    assert (D : (length y <> 6%nat \/ length yk <> 6%nat) \/ (length y = 6%nat /\ length yk = 6%nat)) by lia.
    destruct D as [D|[D1 D2]].
    + assert (E' : strapdownRk4 y dt dVN gN yk = Ret (false, yk)).
      { destruct y as [|a [|b [|c [|d [|e [|f [|]]]]]]]; auto.
        unfold strapdownRk4. destruct (Nat.eqb_spec (length yk) 6); auto. cbn in D. lia. }
      rewrite E' in E. injection E as <- <-. split; [|auto]. split; [discriminate|lia].
    + destruct y as [|a [|b [|c [|d [|e [|f [|]]]]]]]; try discriminate.
      change [a;b;c;d;e;f] with (s6list (V3 a b c, V3 d e f)) in E. rewrite strapdownRk4_eq in E by auto.
      destruct (rk4_step _ _ _ _); try discriminate. cbn [bind] in E. inversion E. cbn. repeat split; auto; discriminate.
Qed.
Lemma rk4_dt0 : forall y dVN gN yk, length y = 6%nat -> length yk = 6%nat -> strapdownRk4 y 0 dVN gN yk = NonFinite.
Proof.
  intros y dVN gN yk H1 H2. destruct y as [|a [|b [|c [|d [|e [|f [|]]]]]]]; try discriminate.
  change [a;b;c;d;e;f] with (s6list (V3 a b c, V3 d e f)). rewrite strapdownRk4_eq by auto.
  unfold rk4_step. now rewrite dynamics_dt0.
Qed.
