(** Proofs about the calibration store. *)
From Coq Require Import Reals List String Lra Lia Classical.
From Verif Require Import Base BaseVec ModelCompensator SpecCompensator ProofVec.
Import ListNotations.
Open Scope R_scope.

Lemma sensor_eq_dec (a b : sensor) : {a = b} + {a <> b}.
Proof. decide equality. Qed.

Definition errors_of (s : sensor) (c : Compensator) : Errors :=
  match s with Accelerometer => accel c | Gyroscope => gyro c end.

Lemma set_rejects s b m sf c : List.length m <> 6%nat -> set_errors s b m sf c = (false, c).
Proof. intros L. destruct s; cbn; unfold setAccelerometerErrors, setGyroscopeErrors; destruct (Nat.eqb_spec (List.length m) 6); easy. Qed.

Lemma set_accepts s b m sf c : List.length m = 6%nat ->
  exists c', set_errors s b m sf c = (true, c') /\ errors_of s c' = Err (Some b) m (Some sf) /\
  forall s', s' <> s -> errors_of s' c' = errors_of s' c.
Proof.
  intros L. destruct s; cbn; unfold setAccelerometerErrors, setGyroscopeErrors; rewrite L; cbn;
  (eexists; split; [reflexivity|]); split; try reflexivity; intros [] H; cbn; congruence.
Qed.

Lemma get_short s c b m sf : List.length m <> 6%nat -> get_errors s c b m sf = Ret (false, (b, m, sf)).
Proof. intros L. destruct s; cbn; unfold getAccelerometerErrors, getGyroscopeErrors; destruct (Nat.eqb_spec (List.length m) 6); easy. Qed.

Lemma get_stored s c b m sf b0 m0 sf0 : List.length m = 6%nat -> errors_of s c = Err (Some b0) m0 (Some sf0) ->
  get_errors s c b m sf = Ret (true, (b0, m0, sf0)).
Proof. intros L E. destruct s; cbn in *; unfold getAccelerometerErrors, getGyroscopeErrors; rewrite L, E; reflexivity. Qed.

Lemma comp_stored s c b m0 m1 m2 m3 m4 m5 sf v : errors_of s c = Err (Some b) [m0; m1; m2; m3; m4; m5] (Some sf) ->
  compensate s c v = Ret (true, calibrated b m0 m1 m2 m3 m4 m5 sf v).
Proof.
  intros E. destruct s; cbn in *; unfold compensateAccelerometer, compensateGyroscope, compensateMeasurement; cbn;
  rewrite E; cbn; unfold calibrated; do 2 f_equal; apply v3_eq; cbn; ring.
Qed.

Lemma list6 (m : list R) : List.length m = 6%nat -> exists a b c d e f, m = [a; b; c; d; e; f].
Proof. intros L. do 6 (destruct m as [|? m]; [discriminate|]). destruct m; [|discriminate]. repeat eexists. Qed.

(** The stored errors are either unset or a complete six-element set. *)
Definition wf (e : Errors) : Prop :=
  e = Err None [] None \/ exists b m sf, e = Err (Some b) m (Some sf) /\ List.length m = 6%nat.

Lemma cstep_spec c k : (forall s, wf (errors_of s c)) ->
  match cstep c k with
  | Ret c' => (forall s, wf (errors_of s c')) /\
      (forall s, ~ stores s k -> errors_of s c' = errors_of s c) /\
      (forall s b m sf, k = CSet s b m sf -> List.length m = 6%nat -> errors_of s c' = Err (Some b) m (Some sf))
  | Undef => exists s, errors_of s c = Err None [] None /\
      ((exists v, k = CComp s v) \/ (exists b m sf, k = CGet s b m sf /\ List.length m = 6%nat))
  | _ => False
  end.
Proof.
  intros W. destruct k as [s b m sf|s b m sf|s v].
  - cbn [cstep]. destruct (Nat.eq_dec (List.length m) 6) as [L|L].
    + destruct (set_accepts s b m sf c L) as (c' & E & H1 & H2). rewrite E. cbn [snd].
      split; [|split].
      * intros s'. destruct (sensor_eq_dec s' s) as [->|N]; [right; rewrite H1; eauto|rewrite H2; auto].
      * intros s' NS. apply H2. intros ->. apply NS. unfold stores. eauto.
      * intros s' b' m' sf' E' _. inversion E'; subst. exact H1.
    + rewrite set_rejects by auto. cbn. split; [exact W|]. split; [auto|]. intros. exfalso. inversion H; subst. auto.
  - cbn [cstep]. destruct (Nat.eq_dec (List.length m) 6) as [L|L].
    + destruct (W s) as [E|(b0 & m0 & sf0 & E & L0)].
      * replace (get_errors s c b m sf) with (@Undef (bool * (vec3 * VectorXd * vec3))).
        { cbn. exists s. split; [exact E|]. right. eauto. }
        destruct s; cbn in *; unfold getAccelerometerErrors, getGyroscopeErrors; rewrite L, E; reflexivity.
      * rewrite (get_stored s c b m sf b0 m0 sf0 L E). cbn. split; [exact W|]. split; [auto|]. intros; discriminate.
    + rewrite get_short by auto. cbn. split; [exact W|]. split; [auto|]. intros; discriminate.
  - cbn [cstep]. destruct (W s) as [E|(b0 & m0 & sf0 & E & L0)].
    + replace (compensate s c v) with (@Undef (bool * vec3)).
      { cbn. exists s. split; [exact E|]. left. eauto. }
      destruct s; cbn in *; unfold compensateAccelerometer, compensateGyroscope, compensateMeasurement; cbn; rewrite E; reflexivity.
    + destruct (list6 m0 L0) as (? & ? & ? & ? & ? & ? & ->).
      rewrite (comp_stored _ _ _ _ _ _ _ _ _ _ v E). cbn. split; [exact W|]. split; [auto|]. intros; discriminate.
Qed.

Lemma wf_new s : wf (errors_of s newCompensator).
Proof. destruct s; now left. Qed.

Lemma crun_spec ks c : (forall s, wf (errors_of s c)) ->
  (exists c', crun c ks = Ret c' /\ (forall s, wf (errors_of s c')) /\
     forall s, (forall k, In k ks -> ~ stores s k) -> errors_of s c' = errors_of s c) \/ crun c ks = Undef.
Proof.
  revert c. induction ks as [|k ks IH]; intros c W; cbn [crun].
  - left. exists c. auto.
  - pose proof (cstep_spec c k W) as H. destruct (cstep c k) as [c1| | | |]; cbn [bind]; try contradiction; [|now right].
    destruct H as (W1 & K & _). destruct (IH c1 W1) as [(c' & E & W' & K')|U]; [|now right].
    left. exists c'. split; [exact E|]. split; [exact W'|]. intros s N.
    rewrite K'; [apply K, N; now left|]. intros k' I. apply N. now right.
Qed.

Lemma crun_app c ks1 ks2 : crun c (ks1 ++ ks2) = bind (crun c ks1) (fun c' => crun c' ks2).
Proof. revert c. induction ks1 as [|k ks1 IH]; intros c; cbn; [reflexivity|]. destruct (cstep c k); cbn; auto. Qed.

Lemma crun_last pre s b m sf post c : List.length m = 6%nat -> (forall k, In k post -> ~ stores s k) ->
  crun newCompensator (pre ++ CSet s b m sf :: post) = Ret c -> errors_of s c = Err (Some b) m (Some sf).
Proof.
  intros L N. rewrite crun_app. destruct (crun_spec pre newCompensator wf_new) as [(c1 & -> & W1 & _)| -> ]; [|discriminate].
  cbn [bind crun]. pose proof (cstep_spec c1 (CSet s b m sf) W1) as H.
  destruct (cstep c1 (CSet s b m sf)) as [c2| | | |]; cbn [bind]; try discriminate. destruct H as (W2 & _ & S2).
  destruct (crun_spec post c2 W2) as [(c3 & -> & _ & K)| -> ]; [|discriminate]. intros E. inversion E; subst c3.
  rewrite K by auto. now apply S2.
Qed.

(** ** Statements *)
Lemma store_last_set pre s b m sf post c b' m' sf' : List.length m = 6%nat -> (forall k, In k post -> ~ stores s k) ->
  crun newCompensator (pre ++ CSet s b m sf :: post) = Ret c ->
  (List.length m' = 6%nat -> get_errors s c b' m' sf' = Ret (true, (b, m, sf))) /\
  (List.length m' <> 6%nat -> get_errors s c b' m' sf' = Ret (false, (b', m', sf'))).
Proof.
  intros L N E. pose proof (crun_last pre s b m sf post c L N E) as H. split; intros L'.
  - now apply get_stored.
  - now apply get_short.
Qed.

Lemma store_sensors_apart s s' b m sf c : s <> s' ->
  (forall b' m' sf', get_errors s' (snd (set_errors s b m sf c)) b' m' sf' = get_errors s' c b' m' sf') /\
  (forall v, compensate s' (snd (set_errors s b m sf c)) v = compensate s' c v).
Proof.
  intros N. destruct s, s'; try congruence; cbn;
  unfold setAccelerometerErrors, setGyroscopeErrors; destruct (negb _); split; intros; reflexivity.
Qed.

Lemma store_set_returns s b m sf c :
  (List.length m = 6%nat -> fst (set_errors s b m sf c) = true) /\
  (List.length m <> 6%nat -> set_errors s b m sf c = (false, c)).
Proof.
  split; intros L; [|now apply set_rejects]. destruct (set_accepts s b m sf c L) as (c' & -> & _). reflexivity.
Qed.

Lemma comp_formula pre s b m0 m1 m2 m3 m4 m5 sf post c v :
  (forall k, In k post -> ~ stores s k) ->
  crun newCompensator (pre ++ CSet s b [m0; m1; m2; m3; m4; m5] sf :: post) = Ret c ->
  compensate s c v = Ret (true, calibrated b m0 m1 m2 m3 m4 m5 sf v) /\ cstep c (CComp s v) = Ret c.
Proof.
  intros N E. pose proof (crun_last pre s b [m0; m1; m2; m3; m4; m5] sf post c eq_refl N E) as H.
  pose proof (comp_stored s c b m0 m1 m2 m3 m4 m5 sf v H) as K. split; [exact K|]. cbn [cstep]. now rewrite K.
Qed.

Lemma calibrated_identity v : calibrated v3zero 0 0 0 0 0 0 (V3 1 1 1) v = v.
Proof. destruct v. unfold calibrated. apply v3_eq; cbn; ring. Qed.
Lemma calibrated_bias b m0 m1 m2 m3 m4 m5 sf : calibrated b m0 m1 m2 m3 m4 m5 sf b = v3zero.
Proof. unfold calibrated. apply v3_eq; cbn; ring. Qed.
Lemma calibrated_affine b m0 m1 m2 m3 m4 m5 sf u v t :
  calibrated b m0 m1 m2 m3 m4 m5 sf (vadd (vscale t u) (vscale (1 - t) v))
  = vadd (vscale t (calibrated b m0 m1 m2 m3 m4 m5 sf u)) (vscale (1 - t) (calibrated b m0 m1 m2 m3 m4 m5 sf v)).
Proof. unfold calibrated. apply v3_eq; cbn; ring. Qed.

(** The map loses no information unless a scale factor or the determinant is 0. *)
Lemma calibrated_injective b m0 m1 m2 m3 m4 m5 sf :
  vx sf * vy sf * vz sf * (1 - m3 * m5 - m0 * (m2 - m3 * m4) + m1 * (m2 * m5 - m4)) <> 0 ->
  forall u v, calibrated b m0 m1 m2 m3 m4 m5 sf u = calibrated b m0 m1 m2 m3 m4 m5 sf v -> u = v.
Proof.
  intros D u v E. destruct u as [u1 u2 u3], v as [v1 v2 v3], b as [b1 b2 b3], sf as [s1 s2 s3].
  unfold calibrated in E. cbn in *. injection E as E1 E2 E3.
  assert (N1 : s1 <> 0) by (intros ->; apply D; ring). assert (N2 : s2 <> 0) by (intros ->; apply D; ring).
  assert (N3 : s3 <> 0) by (intros ->; apply D; ring).
  apply Rmult_eq_reg_l in E1; [|exact N1]. apply Rmult_eq_reg_l in E2; [|exact N2]. apply Rmult_eq_reg_l in E3; [|exact N3].
  set (x := u1 - v1). set (y := u2 - v2). set (z := u3 - v3).
  assert (F1 : x + m0 * y + m1 * z = 0) by (unfold x, y, z; lra).
  assert (F2 : m2 * x + y + m3 * z = 0) by (unfold x, y, z; lra).
  assert (F3 : m4 * x + m5 * y + z = 0) by (unfold x, y, z; lra).
  set (d := 1 - m3 * m5 - m0 * (m2 - m3 * m4) + m1 * (m2 * m5 - m4)) in *.
  assert (Dn : d <> 0) by (intros Hd; apply D; rewrite Hd; ring).
  assert (X : d * x = 0).
  { transitivity ((1 - m3 * m5) * (x + m0 * y + m1 * z) + (m1 * m5 - m0) * (m2 * x + y + m3 * z) + (m0 * m3 - m1) * (m4 * x + m5 * y + z)).
    unfold d; ring. rewrite F1, F2, F3. ring. }
  assert (Y : d * y = 0).
  { transitivity ((m3 * m4 - m2) * (x + m0 * y + m1 * z) + (1 - m1 * m4) * (m2 * x + y + m3 * z) + (m1 * m2 - m3) * (m4 * x + m5 * y + z)).
    unfold d; ring. rewrite F1, F2, F3. ring. }
  assert (Z : d * z = 0).
  { transitivity ((m2 * m5 - m4) * (x + m0 * y + m1 * z) + (m0 * m4 - m5) * (m2 * x + y + m3 * z) + (1 - m0 * m2) * (m4 * x + m5 * y + z)).
    unfold d; ring. rewrite F1, F2, F3. ring. }
  apply Rmult_integral in X, Y, Z. unfold x, y, z in *.
  destruct X as [X|X], Y as [Y|Y], Z as [Z|Z]; try contradiction. apply v3_eq; cbn; lra.
Qed.

Lemma comp_uncalibrated ks s c v : (forall k, In k ks -> ~ stores s k) -> crun newCompensator ks = Ret c ->
  compensate s c v = Undef /\ forall b m sf,
    (List.length m = 6%nat -> get_errors s c b m sf = Undef) /\
    (List.length m <> 6%nat -> get_errors s c b m sf = Ret (false, (b, m, sf))).
Proof.
  intros N E. destruct (crun_spec ks newCompensator wf_new) as [(c' & E' & _ & K)|U]; [|congruence].
  rewrite E in E'. inversion E'; subst c'. specialize (K s N).
  assert (H : errors_of s c = Err None [] None) by (rewrite K; destruct s; reflexivity).
  split; [|intros b m sf; split].
  - destruct s; cbn in *; unfold compensateAccelerometer, compensateGyroscope, compensateMeasurement; cbn; rewrite H; reflexivity.
  - intros L. destruct s; cbn in *; unfold getAccelerometerErrors, getGyroscopeErrors; rewrite L, H; reflexivity.
  - intros L. now apply get_short.
Qed.

Lemma stored_forever ks c c' s : (forall s, wf (errors_of s c)) -> e_b (errors_of s c) <> None -> crun c ks = Ret c' ->
  e_b (errors_of s c') <> None.
Proof.
  revert c. induction ks as [|k ks IH]; cbn [crun]; intros c W B E; [inversion E; now subst|].
  pose proof (cstep_spec c k W) as S. destruct (cstep c k) as [c1| | | |]; try discriminate. destruct S as (W1 & K1 & K2).
  cbn [bind] in E. apply (IH c1 W1); [|exact E].
  destruct (classic (stores s k)) as [(b & m & sf & -> & L)|NS].
  - rewrite (K2 s b m sf eq_refl L). discriminate.
  - now rewrite K1.
Qed.
Lemma stored_after p1 k p2 s c : stores s k -> crun newCompensator (p1 ++ k :: p2) = Ret c -> e_b (errors_of s c) <> None.
Proof.
  intros (b & m & sf & -> & L). rewrite crun_app.
  destruct (crun_spec p1 newCompensator wf_new) as [(c1 & -> & W & _)| -> ]; [|discriminate]. cbn [bind crun].
  pose proof (cstep_spec c1 (CSet s b m sf) W) as S. destruct (cstep c1 (CSet s b m sf)) as [c2| | | |]; try discriminate.
  destruct S as (W2 & _ & K). cbn [bind]. intros E. apply (stored_forever p2 c2 c s W2); [|exact E].
  rewrite (K s b m sf eq_refl L). discriminate.
Qed.

(** A history is defined exactly when no sensor is used before it was calibrated. *)
Lemma crun_defined_iff ks : (exists c, crun newCompensator ks = Ret c) <->
  forall pre k post s, ks = pre ++ k :: post ->
    (exists v, k = CComp s v) \/ (exists b m sf, k = CGet s b m sf /\ List.length m = 6%nat) ->
    exists k', In k' pre /\ stores s k'.
Proof.
  split.
  - intros [c E] pre k post s -> U. rewrite crun_app in E.
    destruct (crun newCompensator pre) as [c1| | | |] eqn:E1; try discriminate. cbn [bind crun] in E.
    destruct (classic (exists k', In k' pre /\ stores s k')) as [H|H]; [exact H|]. exfalso.
    assert (N : forall k', In k' pre -> ~ stores s k') by (intros k' I St; apply H; eauto).
    destruct U as [[v ->]|(b & m & sf & -> & L)].
    + destruct (comp_uncalibrated pre s c1 v N E1) as [U _]. cbn [cstep] in E. rewrite U in E. discriminate.
    + destruct (comp_uncalibrated pre s c1 v3zero N E1) as [_ U]. cbn [cstep] in E.
      destruct (U b m sf) as [U1 _]. rewrite (U1 L) in E. discriminate.
  - induction ks as [|k ks IH] using rev_ind; intros H; [now exists newCompensator|].
    destruct IH as [c E].
    { intros pre k' post s -> U. apply (H pre k' (post ++ [k]) s); [now rewrite <- app_assoc|exact U]. }
    rewrite crun_app, E. cbn [bind crun].
    destruct (crun_spec ks newCompensator wf_new) as [(c' & E' & W & K)|U]; [|congruence].
    rewrite E in E'. inversion E'; subst c'. pose proof (cstep_spec c k W) as S.
    destruct (cstep c k) as [c1| | | |]; try contradiction; [now exists c1|]. exfalso.
    destruct S as (s & Es & U). destruct (H ks k [] s eq_refl U) as (k' & I & St).
    apply in_split in I. destruct I as (p1 & p2 & ->).
    assert (X : e_b (errors_of s c) = None) by now rewrite Es. apply (stored_after p1 k' p2 s c St E X).
Qed.
