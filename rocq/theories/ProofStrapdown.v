(** Proofs about the strapdown navigator. *)
From Coq Require Import Reals ZArith List Lra Lia.
From Verif Require Import Base BaseVec SpecRot SpecEarth ModelAttitude ModelGravity ModelNavUtils ModelStrapdown
  SpecStrapdown ProofVec ProofAttitude ProofAttitude2 ProofGravity ProofNavUtils.
Import ListNotations.
Open Scope R_scope.

(** ** One attitude update *)
Lemma unit_axis d : d <> v3zero -> dot (vscale (/ norm d) d) (vscale (/ norm d) d) = 1.
Proof.
  intros N. pose proof (norm_pos d N). pose proof (norm_sq d) as S. destruct d as [x y z]. unfold dot in *; cbn in *.
  replace (/ norm (V3 x y z) * x * (/ norm (V3 x y z) * x) + / norm (V3 x y z) * y * (/ norm (V3 x y z) * y) +
    / norm (V3 x y z) * z * (/ norm (V3 x y z) * z)) with ((x * x + y * y + z * z) / (norm (V3 x y z) * norm (V3 x y z)))
    by (field; lra).
  rewrite S. field. nra.
Qed.

Lemma skew_exp n m s c : dot n n = 1 -> m <> 0 ->
  let X := snd (skewSymmetric (vscale m n)) in
  madd (madd m3id (mscale (s / m) X)) (mmul (mscale ((1 - c) / (m * m)) X) X)
  = M3 (c + (1 - c) * vx n * vx n) ((1 - c) * vx n * vy n - s * vz n) ((1 - c) * vx n * vz n + s * vy n)
     ((1 - c) * vy n * vx n + s * vz n) (c + (1 - c) * vy n * vy n) ((1 - c) * vy n * vz n - s * vx n)
     ((1 - c) * vz n * vx n - s * vy n) ((1 - c) * vz n * vy n + s * vx n) (c + (1 - c) * vz n * vz n).
Proof.
  intros Hn M. destruct n as [x y z]. unfold dot in Hn. cbn in *.
  assert (Hz : z * z = 1 - x * x - y * y) by lra.
  unfold madd, mscale, mmul, m3id; cbn. apply m3_eq; field_simplify_eq; auto; ring [Hz].
Qed.

Lemma updateAttitude_ok A d : d <> v3zero ->
  updateAttitude A d = Ret (true, mmul A (axis_matrix (vscale (/ norm d) d) (norm d))).
Proof.
  intros N. pose proof (norm_pos d N) as P. unfold updateAttitude. cbn [skewSymmetric negb].
  rewrite (Rdivc_ok _ (norm d)) by lra. cbn [bind]. rewrite Rdivc_ok by nra. cbn [bind].
  do 3 f_equal. unfold axis_matrix. rewrite <- (skew_exp _ (norm d)) by (try apply unit_axis; auto; lra).
  replace (vscale (norm d) (vscale (/ norm d) d)) with d; [reflexivity|].
  set (m := norm d) in *. clearbody m. destruct d. unfold vscale; cbn. apply v3_eq; field; lra.
Qed.

Lemma updateAttitude_zero A : updateAttitude A v3zero = NonFinite.
Proof. unfold updateAttitude. cbn [skewSymmetric negb]. rewrite norm_zero, Rdivc_0. reflexivity. Qed.

(** ** One step *)
Definition fits (d : Z) : Prop := (- 2 ^ 63 <= d < 2 ^ 63)%Z.

Definition next_att (a : option mat3) (d : vec3) : option mat3 :=
  match a with
  | Some A => match updateAttitude A d with Ret (_, A') => Some A' | _ => None end
  | None => None
  end.
Definition next_pv (a : option mat3) (p : option (vec3 * vec3)) (dV : vec3) (dt : R) : option (vec3 * vec3) :=
  match a, p with
  | Some A, Some y =>
      match rk4_step y dt (mvmul A dV) (match gravityNed (vx (fst y)) (vz (fst y)) with Ret (_, g) => g | _ => v3zero end) with
      | Ret y' => Some y' | _ => None end
  | _, _ => None
  end.

Lemma gravity_total lat h : exists g, gravityNed lat h = Ret (true, g).
Proof. destruct (gravity_symmetry lat h) as (gn & gd & E & _). eauto. Qed.

Lemma update_total A d : updateAttitude A d = NonFinite \/ exists A', updateAttitude A d = Ret (true, A').
Proof.
  unfold updateAttitude, Rdivc. cbn [skewSymmetric negb].
  destruct (Req_EM_T (norm d) 0); cbn [bind]; [now left|]. destruct (Req_EM_T _ 0); cbn [bind]; eauto.
Qed.

Lemma dynamics_total y dVN gN dt : strapdownDynamics y dVN gN dt = NonFinite \/ exists r, strapdownDynamics y dVN gN dt = Ret r.
Proof.
  destruct (Req_EM_T dt 0) as [->|N]; [left; apply dynamics_dt0|].
  destruct (regular_dec y) as [Rg|NR].
  - right. rewrite (dynamics_ok y dVN gN dt N Rg). eauto.
  - left. apply dynamics_nonfinite. tauto.
Qed.

Lemma rk4_total y dt dVN gN : rk4_step y dt dVN gN = NonFinite \/ exists r, rk4_step y dt dVN gN = Ret r.
Proof.
  unfold rk4_step.
  repeat match goal with |- context [strapdownDynamics ?y ?a ?b ?c] =>
    destruct (dynamics_total y a b c) as [->|(? & ->)]; cbn [bind]; [now left|] end. eauto.
Qed.

Lemma integrate_eq dV dTh t n :
  (fits (t - tov n) -> integrate dV dTh t (Some n) =
    Ret (true, Some (NavS (next_att (RB2N n) dTh) (next_pv (next_att (RB2N n) dTh) (pv n) dV (IZR (t - tov n) / 1000000))
      t (IZR (t - tov n) / 1000000)))) /\
  (~ fits (t - tov n) -> integrate dV dTh t (Some n) = Undef).
Proof.
  unfold integrate, int64_min, int64_max, fits.
  destruct (Z.ltb_spec (t - tov n) (- 2 ^ 63)), (Z.ltb_spec (2 ^ 63 - 1) (t - tov n)); cbn [orb]; split; intros F; try lia; try reflexivity.
  set (dt' := IZR (t - tov n) / 1000000). destruct n as [a p t0 dt0]; cbn [RB2N pv tov dt] in *.
  destruct a as [A|]; cbn [next_att]; [|reflexivity].
  destruct (update_total A dTh) as [->|(A' & ->)]; [reflexivity|]. cbn [bind negb next_pv].
  destruct p as [[lla v]|]; [|reflexivity]. cbn [fst]. destruct (gravity_total (vx lla) (vz lla)) as (g & ->).
  change [vx lla; vy lla; vz lla; vx v; vy v; vz v] with (s6list (lla, v)). rewrite strapdownRk4_eq by reflexivity.
  destruct (rk4_total (lla, v) dt' (mvmul A' dV) g) as [->|([q w] & ->)]; cbn [bind]; [reflexivity|].
  destruct q, w. reflexivity.
Qed.

(** ** Histories *)
Lemma run_some n l s : run (Some n) l = Ret s -> exists n', s = Some n'.
Proof.
  revert n. induction l as [|m l IH]; cbn [run]; intros n E; [inversion E; eauto|].
  destruct (integrate_eq (s_dV m) (s_dTh m) (s_t m) n) as [I1 I2].
  destruct (Z_le_dec (- 2 ^ 63) (s_t m - tov n)), (Z_lt_dec (s_t m - tov n) (2 ^ 63)).
  2-4: rewrite I2 in E by (unfold fits; lia); discriminate.
  rewrite I1 in E by (unfold fits; lia). cbn [bind snd] in E. eauto.
Qed.

Lemma run_defined n l : times_fit (tov n) l -> exists n', run (Some n) l = Ret (Some n').
Proof.
  revert n. induction l as [|m l IH]; cbn [run times_fit]; intros n F; [eauto|].
  destruct (integrate_eq (s_dV m) (s_dTh m) (s_t m) n) as [I1 _]. rewrite I1 by (unfold fits; lia). cbn [bind snd].
  apply IH. cbn. tauto.
Qed.
Lemma run_undefined n l : ~ times_fit (tov n) l -> run (Some n) l = Undef.
Proof.
  revert n. induction l as [|m l IH]; cbn [run times_fit]; intros n F; [tauto|].
  destruct (integrate_eq (s_dV m) (s_dTh m) (s_t m) n) as [I1 I2].
  destruct (Z_le_dec (- 2 ^ 63) (s_t m - tov n)), (Z_lt_dec (s_t m - tov n) (2 ^ 63)).
  2-4: rewrite I2 by (unfold fits; lia); reflexivity.
  rewrite I1 by (unfold fits; lia). cbn [bind snd]. apply IH. cbn. tauto.
Qed.

Lemma run_step n m l n' : run (Some n) (m :: l) = Ret (Some n') ->
  let d := IZR (s_t m - tov n) / 1000000 in
  let a := next_att (RB2N n) (s_dTh m) in
  fits (s_t m - tov n) /\ run (Some (NavS a (next_pv a (pv n) (s_dV m) d) (s_t m) d)) l = Ret (Some n').
Proof.
  cbn [run]. intros E. destruct (integrate_eq (s_dV m) (s_dTh m) (s_t m) n) as [I1 I2].
  destruct (Z_le_dec (- 2 ^ 63) (s_t m - tov n)), (Z_lt_dec (s_t m - tov n) (2 ^ 63)).
  2-4: rewrite I2 in E by (unfold fits; lia); discriminate.
  rewrite I1 in E by (unfold fits; lia). split; [unfold fits; lia|exact E].
Qed.

Lemma run_app s l1 l2 : run s (l1 ++ l2) = bind (run s l1) (fun s' => run s' l2).
Proof. revert s. induction l1 as [|m l1 IH]; intros s; cbn [run app]; [reflexivity|]. destruct (integrate _ _ _ s); cbn [bind]; auto. Qed.

(** Attitude: the composition of the increments. *)
Lemma run_attitude l : forall n n' A, run (Some n) l = Ret (Some n') -> RB2N n = Some A ->
  (forall m, In m l -> s_dTh m <> v3zero) ->
  exists B, RB2N n' = Some (mmul A B) /\ is_rotation B /\
    forall v, mvmul B v = fold_right (fun m w => rotvec (s_dTh m) w) v l.
Proof.
  induction l as [|m l IH]; intros n n' A E HA NZ.
  - cbn in E. inversion E; subst n'. exists m3id. rewrite mmul_id_r. split; [exact HA|]. split; [apply rotation_id|]. apply mvmul_id.
  - apply run_step in E. destruct E as [_ E]. rewrite HA in E. unfold next_att in E at 1.
    assert (D : s_dTh m <> v3zero) by (apply NZ; now left).
    cbn [next_att] in E. rewrite (updateAttitude_ok A _ D) in E.
    set (C := axis_matrix (vscale (/ norm (s_dTh m)) (s_dTh m)) (norm (s_dTh m))) in *.
    destruct (IH _ _ (mmul A C) E eq_refl) as (B & HB & RB & VB); [intros; apply NZ; now right|].
    exists (mmul C B). rewrite HB, mmul_assoc. split; [reflexivity|]. split.
    + apply rotation_mmul; [|exact RB]. apply axis_matrix_rotation, unit_axis, D.
    + intros v. rewrite mvmul_mmul, VB. unfold C. rewrite axis_matrix_rotate. reflexivity.
Qed.

Lemma run_attitude_lost l : forall n n', run (Some n) l = Ret (Some n') -> RB2N n = None -> RB2N n' = None.
Proof.
  induction l as [|m l IH]; intros n n' E HA; [cbn in E; inversion E; now subst|].
  apply run_step in E. destruct E as [_ E]. apply (IH _ _ E). cbn. now rewrite HA.
Qed.
Lemma run_pv_lost l : forall n n', run (Some n) l = Ret (Some n') -> pv n = None -> pv n' = None.
Proof.
  induction l as [|m l IH]; intros n n' E HA; [cbn in E; inversion E; now subst|].
  apply run_step in E. destruct E as [_ E]. apply (IH _ _ E). cbn. rewrite HA. now destruct (next_att _ _).
Qed.
Lemma run_zero l : forall n n' m, run (Some n) l = Ret (Some n') -> In m l -> s_dTh m = v3zero ->
  RB2N n' = None /\ pv n' = None.
Proof.
  induction l as [|m0 l IH]; intros n n' m E I Z; [destruct I|]. destruct I as [->|I].
  - apply run_step in E. destruct E as [_ E]. rewrite Z in E.
    assert (K : next_att (RB2N n) v3zero = None) by (destruct (RB2N n) as [A|]; cbn [next_att]; [now rewrite updateAttitude_zero|reflexivity]).
    rewrite K in E. split; [eapply run_attitude_lost; [exact E|reflexivity]|eapply run_pv_lost; [exact E|reflexivity]].
  - apply run_step in E. destruct E as [_ E]. eapply IH; eauto.
Qed.

(** Times. *)
Lemma last_cons (x d : Z) l : last (x :: l) d = last l x.
Proof. revert x d. induction l as [|y l IH]; intros x d; [reflexivity|]. change (last (x :: y :: l) d) with (last (y :: l) d). now rewrite !IH. Qed.
Lemma run_time l : forall n n', run (Some n) l = Ret (Some n') -> tov n' = last_time (tov n) l.
Proof.
  induction l as [|m l IH]; intros n n' E; [cbn in E; inversion E; now subst|].
  apply run_step in E. destruct E as [_ E]. rewrite (IH _ _ E). cbn [tov]. unfold last_time. cbn [map]. now rewrite last_cons.
Qed.
Lemma run_dt n l m n' : run (Some n) (l ++ [m]) = Ret (Some n') ->
  tov n' = s_t m /\ dt n' = IZR (s_t m - last_time (tov n) l) / 1000000.
Proof.
  rewrite run_app. destruct (run (Some n) l) as [s| | | |] eqn:E; try discriminate. cbn [bind]. intros H.
  destruct (run_some n l s E) as (n1 & ->). apply run_step in H. destruct H as [_ H]. cbn [run] in H.
  inversion H; subst n'. cbn. split; [reflexivity|]. now rewrite (run_time l n n1 E).
Qed.

Lemma same_time_pv n l m m' n' : run (Some n) (l ++ [m; m']) = Ret (Some n') -> s_t m' = s_t m ->
  pv n' = None.
Proof.
  rewrite run_app. destruct (run (Some n) l) as [s| | | |] eqn:E; try discriminate. cbn [bind]. intros H T.
  destruct (run_some n l s E) as (n1 & ->). apply run_step in H. destruct H as [_ H]. apply run_step in H. destruct H as [_ H].
  cbn [run] in H. inversion H; subst n'. cbn [pv tov RB2N]. rewrite T, Z.sub_diag.
  replace (0 / 1000000) with 0 by lra.
  set (p := next_pv (next_att (RB2N n1) (s_dTh m)) _ _ _). clear. destruct (next_att _ (s_dTh m')); [|reflexivity].
  destruct p; [|reflexivity]. cbn [next_pv]. unfold rk4_step. now rewrite dynamics_dt0.
Qed.

(** ** Axis rotations add up *)
Lemma rotvec_axis n s v : dot n n = 1 -> s <> 0 -> rotvec (vscale s n) v = rotate n s v.
Proof.
  intros Hn S. unfold rotvec. rewrite norm_scale. assert (N1 : norm n = 1) by (unfold norm; rewrite Hn; apply sqrt_1).
  rewrite N1, Rmult_1_r. unfold Rabs. destruct (Rcase_abs s) as [L|L].
  - replace (vscale (/ - s) (vscale s n)) with (vneg n) by (destruct n; unfold vscale, vneg; cbn; apply v3_eq; field; lra).
    destruct n, v. unfold rotate, vadd, vscale, vneg, cross, dot; cbn. rewrite cos_neg, sin_neg. apply v3_eq; ring.
  - replace (vscale (/ s) (vscale s n)) with n by (destruct n; unfold vscale; cbn; apply v3_eq; field; lra). reflexivity.
Qed.
Lemma rotate_add n s t v : dot n n = 1 -> rotate n s (rotate n t v) = rotate n (s + t) v.
Proof. intros Hn. rewrite <- !axis_matrix_rotate, <- mvmul_mmul, axis_matrix_add by auto. reflexivity. Qed.
Lemma rotate_0 n v : rotate n 0 v = v.
Proof. rewrite <- axis_matrix_rotate, axis_matrix_id. apply mvmul_id. Qed.

Lemma fold_axis n l v : dot n n = 1 -> (forall m, In m l -> exists s, s <> 0 /\ s_dTh m = vscale s n) ->
  fold_right (fun m w => rotvec (s_dTh m) w) v l = rotate n (fold_right Rplus 0 (map (fun m => dot n (s_dTh m)) l)) v.
Proof.
  intros Hn. induction l as [|m l IH]; intros H; cbn [fold_right map]; [now rewrite rotate_0|].
  rewrite IH by (intros; apply H; now right). destruct (H m) as (s & S & E); [now left|]. rewrite E.
  rewrite rotvec_axis by auto. rewrite rotate_add by auto. f_equal. f_equal.
  replace (dot n (vscale s n)) with (s * dot n n) by (destruct n; unfold dot, vscale; cbn; ring). rewrite Hn. ring.
Qed.

Lemma one_axis n l (st0 : Nav) n1 n2 m A : dot n n = 1 -> RB2N st0 = Some A ->
  (forall m, In m l -> exists s, s <> 0 /\ s_dTh m = vscale s n) ->
  fold_right Rplus 0 (map (fun m => dot n (s_dTh m)) l) <> 0 ->
  s_dTh m = vscale (fold_right Rplus 0 (map (fun m => dot n (s_dTh m)) l)) n ->
  run (Some st0) l = Ret (Some n1) -> run (Some st0) [m] = Ret (Some n2) -> RB2N n1 = RB2N n2.
Proof.
  intros Hn HA H S E R1 R2.
  assert (NZ : forall s, s <> 0 -> vscale s n <> v3zero).
  { intros s Hs K. assert (dot (vscale s n) (vscale s n) = s * s * dot n n) by (destruct n; unfold dot, vscale; cbn; ring).
    rewrite K, Hn in H0. unfold dot in H0; cbn in H0. nra. }
  destruct (run_attitude l st0 n1 A R1 HA) as (B1 & E1 & _ & V1).
  { intros q I K. destruct (H q I) as (s & Hs & Es). rewrite Es in K. now apply (NZ s). }
  destruct (run_attitude [m] st0 n2 A R2 HA) as (B2 & E2 & _ & V2).
  { intros q [<-|[]] K. rewrite E in K. now apply (NZ _ S). }
  rewrite E1, E2. do 2 f_equal. apply mat3_ext. intros v. rewrite V1, V2. cbn [fold_right]. rewrite E.
  rewrite rotvec_axis by auto. now apply fold_axis.
Qed.

(** ** A vehicle at rest on the rotating Earth *)
Lemma rotate_conj A n t v : is_rotation A -> mvmul A (rotate (mvmul (mtr A) n) t v) = rotate n t (mvmul A v).
Proof.
  intros RA. pose proof RA as [D C]. unfold rotate. rewrite !mvmul_vadd, !mvmul_vscale, <- C.
  assert (I : mvmul A (mvmul (mtr A) n) = n).
  { rewrite <- mvmul_mmul. destruct (proj1 (rotation_iff A) RA) as (H1 & _). rewrite H1. apply mvmul_id. }
  rewrite I. rewrite <- (D (mvmul (mtr A) n) v), I. reflexivity.
Qed.

Lemma fold_same (l : list sample) v d : (forall m, In m l -> s_dTh m = d) ->
  fold_right (fun m w => rotvec (s_dTh m) w) v l = Nat.iter (List.length l) (rotvec d) v.
Proof.
  induction l as [|m l IH]; intros H; [reflexivity|]. cbn [fold_right List.length Nat.iter].
  rewrite IH by (intros; apply H; now right). rewrite H by now left. reflexivity.
Qed.

Lemma iter_rotate n s k v : dot n n = 1 -> Nat.iter k (rotate n s) v = rotate n (INR k * s) v.
Proof.
  intros Hn. induction k as [|k IH]; [cbn; now rewrite Rmult_0_l, rotate_0|].
  change (Nat.iter (S k) (rotate n s) v) with (rotate n s (Nat.iter k (rotate n s) v)).
  rewrite IH, rotate_add, S_INR by auto. f_equal. ring.
Qed.

Lemma rest_drift A w (h : R) l (s : Nav) s' : is_rotation A -> w <> v3zero -> 0 < h -> RB2N s = Some A ->
  (forall m, In m l -> s_dTh m = vscale h (mvmul (mtr A) w)) -> run (Some s) l = Ret (Some s') ->
  exists A', RB2N s' = Some A' /\
    forall b, mvmul A' b = rotate (vscale (/ norm w) w) (INR (List.length l) * (h * norm w)) (mvmul A b).
Proof.
  intros RA W Hh HA H R. set (n := vscale (/ norm w) w). pose proof (unit_axis w W) as Hn. fold n in Hn.
  pose proof (norm_pos w W) as P.
  set (n' := mvmul (mtr A) n).
  assert (Hn' : dot n' n' = 1).
  { unfold n'. destruct (rotation_mtr A RA) as [D _]. now rewrite D. }
  assert (E : vscale h (mvmul (mtr A) w) = vscale (h * norm w) n').
  { unfold n', n. rewrite mvmul_vscale. set (u := mvmul (mtr A) w). destruct u. unfold vscale; cbn. apply v3_eq; field; lra. }
  assert (NZ : h * norm w <> 0) by nra.
  destruct (run_attitude l s s' A R HA) as (B & E' & _ & VB).
  { intros m I K. rewrite (H m I), E in K.
    assert (Q : dot (vscale (h * norm w) n') (vscale (h * norm w) n') = (h * norm w) * (h * norm w) * dot n' n').
    { unfold dot, vscale; cbn; ring. }
    rewrite K, Hn' in Q. unfold dot in Q; cbn in Q. nra. }
  exists (mmul A B). split; [exact E'|]. intros b. rewrite mvmul_mmul, VB.
  rewrite (fold_same l b (vscale (h * norm w) n')) by (intros; rewrite <- E; auto).
  assert (X : forall k v, Nat.iter k (rotvec (vscale (h * norm w) n')) v = Nat.iter k (rotate n' (h * norm w)) v).
  { induction k; intros; [reflexivity|]. cbn [Nat.iter nat_rect]. unfold Nat.iter in *. cbn. rewrite IHk. now apply rotvec_axis. }
  rewrite X, iter_rotate by auto. unfold n'. now apply rotate_conj.
Qed.

(** ** Longitude *)
Definition shift_nav (k : R) (n : Nav) : Nav :=
  NavS (RB2N n) (match pv n with Some y => Some (shift k y) | None => None end) (tov n) (dt n).

Lemma rk4_shift k y d dVN gN : rk4_step (shift k y) d dVN gN = match rk4_step y d dVN gN with Ret y' => Ret (shift k y') | o => o end.
Proof.
  unfold rk4_step. rewrite dynamics_shift. destruct (strapdownDynamics y _ _ _) as [f1| | | |]; cbn [bind]; try reflexivity.
  rewrite shift_add, dynamics_shift. destruct (strapdownDynamics _ _ _ _) as [f2| | | |]; cbn [bind]; try reflexivity.
  rewrite shift_add, dynamics_shift. destruct (strapdownDynamics _ _ _ _) as [f3| | | |]; cbn [bind]; try reflexivity.
  rewrite shift_add, dynamics_shift. destruct (strapdownDynamics _ _ _ _) as [f4| | | |]; cbn [bind]; try reflexivity.
  now rewrite !shift_add.
Qed.

Lemma run_shift k l : forall n n', run (Some n) l = Ret (Some n') -> run (Some (shift_nav k n)) l = Ret (Some (shift_nav k n')).
Proof.
  induction l as [|m l IH]; intros n n' E; [cbn in *; inversion E; reflexivity|].
  apply run_step in E. destruct E as [F E]. cbn [run].
  destruct (integrate_eq (s_dV m) (s_dTh m) (s_t m) (shift_nav k n)) as [I1 _].
  rewrite I1 by exact F. cbn [bind snd shift_nav RB2N pv tov dt]. rewrite <- (IH _ _ E). f_equal. f_equal.
  unfold shift_nav; cbn [RB2N pv tov dt]. f_equal.
  destruct (next_att (RB2N n) (s_dTh m)) as [A|]; [|reflexivity]. destruct (pv n) as [y|]; [|reflexivity].
  cbn [next_pv]. rewrite rk4_shift. cbn [shift fst vx vz].
  destruct (rk4_step y _ _ _); reflexivity.
Qed.

Lemma init_forgets lla v rph t s s' m l :
  run (snd (initialize lla v rph t s)) (m :: l) = run (snd (initialize lla v rph t s')) (m :: l).
Proof. reflexivity. Qed.

Lemma init_sets lla v rph t s : exists n,
  initialize lla v rph t s = (true, Some n) /\ RB2N n = Some (snd (euler2Dcm rph)) /\ pv n = Some (lla, v) /\ tov n = t.
Proof. eexists. repeat split. Qed.

Lemma no_overflow_nonneg t0 l : (0 <= t0 < 2 ^ 63)%Z -> (forall m, In m l -> (0 <= s_t m < 2 ^ 63)%Z) -> times_fit t0 l.
Proof.
  revert t0. induction l as [|m l IH]; intros t0 H0 H; cbn [times_fit]; [exact I|].
  pose proof (H m (or_introl eq_refl)). split; [lia|]. apply IH; [lia|]. intros; apply H; now right.
Qed.

Lemma init_defined lla v rph t s l : (0 <= t < 2 ^ 63)%Z -> (forall m, In m l -> (0 <= s_t m < 2 ^ 63)%Z) ->
  exists n, run (snd (initialize lla v rph t s)) l = Ret (Some n).
Proof.
  intros T H. destruct (init_sets lla v rph t s) as (n & -> & _ & _ & E). cbn [snd]. apply run_defined.
  rewrite E. now apply no_overflow_nonneg.
Qed.

Lemma init_attitude lla vNed rph t s l n' : (forall m, In m l -> s_dTh m <> v3zero) ->
  run (snd (initialize lla vNed rph t s)) l = Ret (Some n') ->
  fst (initialize lla vNed rph t s) = true /\
  exists A, RB2N n' = Some A /\ is_rotation A /\
    forall v, mvmul A v = mvmul (snd (euler2Dcm rph)) (fold_right (fun m w => rotvec (s_dTh m) w) v l).
Proof.
  intros NZ H. destruct (init_sets lla vNed rph t s) as (n & E & EA & _). rewrite E in *. split; [reflexivity|]. cbn [snd] in H.
  destruct (run_attitude l n n' _ H EA NZ) as (B & HB & RB & VB). eexists. split; [exact HB|]. split.
  - apply rotation_mmul; [|exact RB]. apply euler_matrix_rotation.
  - intros v. now rewrite mvmul_mmul, VB.
Qed.

Lemma init_transpose lla vNed r p h t s : exists n A,
  initialize lla vNed (V3 r p h) t s = (true, Some n) /\ RB2N n = Some A /\
  forall b, mvmul (mtr A) b = body_axis r p h b.
Proof.
  destruct (init_sets lla vNed (V3 r p h) t s) as (n & E & EA & _). exists n. eexists. split; [exact E|]. split; [exact EA|].
  intros b. apply euler_matrix_transposed.
Qed.

Lemma init_body_refuted : exists r p h, forall lla vNed t s n A,
  initialize lla vNed (V3 r p h) t s = (true, Some n) -> RB2N n = Some A ->
  mvmul A ex = V3 0 (-1) 0 /\ body_axis r p h ex = V3 0 1 0.
Proof.
  exists 0, 0, (PI/2). intros lla vNed t s n A E EA.
  destruct (init_sets lla vNed (V3 0 0 (PI/2)) t s) as (n' & E' & EA' & _). rewrite E in E'. inversion E'; subst n'.
  rewrite EA in EA'. inversion EA'; subst A. split.
  - cbn. unfold mmul, euler_R1, euler_R2, euler_R3, mvmul. cbn. rewrite cos_PI2, sin_PI2, cos_0, sin_0. apply v3_eq; ring.
  - rewrite body_x, cos_PI2, sin_PI2, cos_0, sin_0. apply v3_eq; ring.
Qed.
