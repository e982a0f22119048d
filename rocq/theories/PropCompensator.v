(** Theorems C61-C63: the calibration store and measurement compensation. *)
From Coq Require Import Reals List String Lra Lia.
From Verif Require Import Base BaseVec ModelCompensator SpecCompensator ProofCompensator.
Import ListNotations.
Open Scope R_scope.

(** C61: after any history on a new object, a get returns what the last stored
    calibration of that sensor was. *)
Theorem C61_get_returns_last_set : forall pre s b m sf post c b' m' sf',
  List.length m = 6%nat -> (forall k, In k post -> ~ stores s k) ->
  crun newCompensator (pre ++ CSet s b m sf :: post) = Ret c ->
  (List.length m' = 6%nat -> get_errors s c b' m' sf' = Ret (true, (b, m, sf))) /\
  (List.length m' <> 6%nat -> get_errors s c b' m' sf' = Ret (false, (b', m', sf'))).
Proof. exact store_last_set. Qed.
Print Assumptions C61_get_returns_last_set.
Theorem C61_set_accepts_six_rejects_others : forall s b m sf c,
  (List.length m = 6%nat -> fst (set_errors s b m sf c) = true) /\
  (List.length m <> 6%nat -> set_errors s b m sf c = (false, c)).
Proof. exact store_set_returns. Qed.
Print Assumptions C61_set_accepts_six_rejects_others.
Theorem C61_sensors_independent : forall s s' b m sf c, s <> s' ->
  (forall b' m' sf', get_errors s' (snd (set_errors s b m sf c)) b' m' sf' = get_errors s' c b' m' sf') /\
  (forall v, compensate s' (snd (set_errors s b m sf c)) v = compensate s' c v).
Proof. exact store_sensors_apart. Qed.
Print Assumptions C61_sensors_independent.

(** A history with a rejected set, a set of the other sensor and a use in between. *)
Definition hist : list ccall :=
  [CSet Gyroscope (V3 9 9 9) [1; 1; 1; 1; 1; 1] (V3 2 2 2); CSet Accelerometer (V3 1 2 3) [0; 1; 0; 0; 0; 0] (V3 1 1 2);
   CSet Accelerometer (V3 7 7 7) [0] (V3 7 7 7); CSet Gyroscope (V3 0 0 0) [0; 0; 0; 0; 0; 0] (V3 1 1 1); CComp Accelerometer (V3 0 0 0)].
Example C61_case : exists c, crun newCompensator hist = Ret c /\
  get_errors Accelerometer c v3zero [0; 0; 0; 0; 0; 0] v3zero = Ret (true, (V3 1 2 3, [0; 1; 0; 0; 0; 0], V3 1 1 2)).
Proof.
  eexists. split; [reflexivity|].
  refine (proj1 (C61_get_returns_last_set (firstn 1 hist) Accelerometer (V3 1 2 3) [0; 1; 0; 0; 0; 0] (V3 1 1 2) (skipn 2 hist) _ v3zero [0; 0; 0; 0; 0; 0] v3zero eq_refl _ _) eq_refl); [|reflexivity].
  intros k [<-|[<-|[<-|[]]]] (b & m & sf & E & L); inversion E; subst; discriminate.
Qed.

(** C62 *)
Theorem C62_compensation_applies_last_set : forall pre s b m0 m1 m2 m3 m4 m5 sf post c v,
  (forall k, In k post -> ~ stores s k) ->
  crun newCompensator (pre ++ CSet s b [m0; m1; m2; m3; m4; m5] sf :: post) = Ret c ->
  compensate s c v = Ret (true, calibrated b m0 m1 m2 m3 m4 m5 sf v) /\ cstep c (CComp s v) = Ret c.
Proof. exact comp_formula. Qed.
Print Assumptions C62_compensation_applies_last_set.
Theorem C62_calibration_map : forall b m0 m1 m2 m3 m4 m5 sf,
  (forall v, calibrated v3zero 0 0 0 0 0 0 (V3 1 1 1) v = v) /\
  calibrated b m0 m1 m2 m3 m4 m5 sf b = v3zero /\
  (forall u v t, calibrated b m0 m1 m2 m3 m4 m5 sf (vadd (vscale t u) (vscale (1 - t) v))
    = vadd (vscale t (calibrated b m0 m1 m2 m3 m4 m5 sf u)) (vscale (1 - t) (calibrated b m0 m1 m2 m3 m4 m5 sf v))).
Proof.
  intros. split; [exact calibrated_identity|]. split; [apply calibrated_bias|]. apply calibrated_affine.
Qed.
Print Assumptions C62_calibration_map.
Theorem C62_compensation_loses_nothing : forall b m0 m1 m2 m3 m4 m5 sf,
  vx sf * vy sf * vz sf * (1 - m3 * m5 - m0 * (m2 - m3 * m4) + m1 * (m2 * m5 - m4)) <> 0 ->
  forall u v, calibrated b m0 m1 m2 m3 m4 m5 sf u = calibrated b m0 m1 m2 m3 m4 m5 sf v -> u = v.
Proof. exact calibrated_injective. Qed.
Print Assumptions C62_compensation_loses_nothing.
Example C62_case : exists c, crun newCompensator hist = Ret c /\
  compensate Accelerometer c (V3 2 4 6) = Ret (true, V3 4 2 6).
Proof.
  eexists. split; [reflexivity|].
  etransitivity; [refine (proj1 (C62_compensation_applies_last_set (firstn 1 hist) Accelerometer (V3 1 2 3) 0 1 0 0 0 0 (V3 1 1 2) (skipn 2 hist) _ _ _ _)); [|reflexivity]|].
  - intros k [<-|[<-|[<-|[]]]] (b & m & sf & E & L); inversion E; subst; discriminate.
  - unfold calibrated. cbn. repeat f_equal; lra.
Qed.

(** C63: using a sensor that was never calibrated is not rejected but undefined. *)
Theorem C63_use_before_calibration_rejected_refuted : forall ks s c v,
  (forall k, In k ks -> ~ stores s k) -> crun newCompensator ks = Ret c ->
  compensate s c v = Undef /\ forall b m sf,
    (List.length m = 6%nat -> get_errors s c b m sf = Undef) /\
    (List.length m <> 6%nat -> get_errors s c b m sf = Ret (false, (b, m, sf))).
Proof. exact comp_uncalibrated. Qed.
Print Assumptions C63_use_before_calibration_rejected_refuted.
Theorem C63_defined_iff_calibrated_first : forall ks, (exists c, crun newCompensator ks = Ret c) <->
  forall pre k post s, ks = pre ++ k :: post ->
    (exists v, k = CComp s v) \/ (exists b m sf, k = CGet s b m sf /\ List.length m = 6%nat) ->
    exists k', In k' pre /\ stores s k'.
Proof. exact crun_defined_iff. Qed.
Print Assumptions C63_defined_iff_calibrated_first.
Example C63_case : exists c, crun newCompensator [CSet Gyroscope v3zero [0; 0; 0; 0; 0; 0] (V3 1 1 1)] = Ret c /\
  compensate Accelerometer c v3zero = Undef.
Proof. eexists. split; reflexivity. Qed.
