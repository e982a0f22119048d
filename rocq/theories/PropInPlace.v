(** C163: position conversions on shared variables; C164: the navigator with
    all its members. *)
From Coq Require Import Reals Arith ZArith List Lra Lia.
From Verif Require Import Base BaseVec SpecRot SpecEarth ModelGravity ModelFrames ModelInPlace ModelStrapdown ModelNavObject
  ProofFrames ProofFrames2 ProofFrames3 ProofInPlace ProofNavObject.
Import ListNotations.
Open Scope R_scope.

(** C163: ecef2Lla may write over its argument, and only the three outputs
    change; nothing is assumed about where [rE] is. *)
Theorem C163_ecef2Lla_in_place : forall rE lat lon alt m b la lo al, lat <> lon -> lat <> alt -> lon <> alt ->
  ecef2Lla (V3 (m rE) (m (rE + 1)%nat) (m (rE + 2)%nat)) = Ret (b, (la, lo, al)) ->
  exists m', ecef2Lla_at rE lat lon alt m = Ret (b, m') /\ m' lat = la /\ m' lon = lo /\ m' alt = al /\
    forall c, c <> lat -> c <> lon -> c <> alt -> m' c = m c.
Proof. exact to_lla. Qed.
Print Assumptions C163_ecef2Lla_in_place.
(** lla2Ecef needs an output whose first cell is none of the inputs and whose
    second is neither latitude nor altitude. *)
Theorem C163_lla2Ecef_apart : forall lat lon alt rE m r b p,
  lat <> rE -> lon <> rE -> alt <> rE -> lat <> (rE + 1)%nat -> alt <> (rE + 1)%nat ->
  lla2Ecef (m lat) (m lon) (m alt) r = Ret (b, p) -> in_range (m lat) (m lon) ->
  exists m', lla2Ecef_at lat lon alt rE m = Ret (b, m') /\ m' rE = vx p /\ m' (rE + 1)%nat = vy p /\ m' (rE + 2)%nat = vz p /\
    forall c, c <> rE -> c <> (rE + 1)%nat -> c <> (rE + 2)%nat -> m' c = m c.
Proof. exact apart. Qed.
Print Assumptions C163_lla2Ecef_apart.
Theorem C163_lla2Ecef_rejects : forall lat lon alt rE m, ~ in_range (m lat) (m lon) ->
  lla2Ecef_at lat lon alt rE m = Ret (false, m).
Proof. exact rejected. Qed.
Print Assumptions C163_lla2Ecef_rejects.
(** Written over its own arguments, lla2Ecef uses the first coordinate, in
    metres, as the latitude of the other two. *)
Theorem C163_lla2Ecef_over_its_arguments : forall v m r, in_range (m v) (m (v + 1)%nat) ->
  exists x y z m', lla2Ecef (m v) (m (v + 1)%nat) (m (v + 2)%nat) r = Ret (true, V3 x y z) /\
    lla2Ecef_at v (v + 1) (v + 2) v m = Ret (true, m') /\
    m' v = x /\ m' (v + 1)%nat * cos (m v) = y * cos x /\ m' (v + 2)%nat * sin (m v) = z * sin x.
Proof. exact shared. Qed.
Print Assumptions C163_lla2Ecef_over_its_arguments.
(** The error can be the size of the Earth: a point on the equator goes to
    6000 km north. *)
Theorem C163_lla2Ecef_in_place_refuted : exists h, 0 <= h <= 10 /\ forall v m r, m v = 0 -> m (v + 1)%nat = 0 -> m (v + 2)%nat = h ->
  lla2Ecef 0 0 h r = Ret (true, V3 (6378137 + h) 0 0) /\
  exists m', lla2Ecef_at v (v + 1) (v + 2) v m = Ret (true, m') /\ 6000000 <= m' (v + 2)%nat.
Proof. exact shared_wrong. Qed.
Print Assumptions C163_lla2Ecef_in_place_refuted.
(** A vector in cells 5 to 7 converted in place; and an output in cells 0 to 2
    with the longitude in its second cell. *)
Example C163_case : forall m, m 5%nat = -4000000 -> m 6%nat = 1 -> m 7%nat = 3000000 -> m 3%nat = 1 -> m 1%nat = 2 ->
  (exists m', ecef2Lla_at 5 5 6 7 m = Ret (true, m')) /\ (exists m', lla2Ecef_at 3 1 4 0 m = Ret (true, m')).
Proof.
  intros m E5 E6 E7 E3 E1. split.
  - destruct (ecef2Lla_accepted (V3 (-4000000) 1 3000000) m3zero) as (la & lo & al & E & _); [cbn [vx vy]; lra|unfold dot; cbn [vx vy vz]; lra|].
    destruct (to_lla 5 5 6 7 m true la lo al) as (m' & H & _); try lia; [cbn; now rewrite E5, E6, E7|]. eauto.
  - assert (I : in_range (m 3%nat) (m 1%nat)) by (rewrite E3, E1; unfold in_range; rewrite !Rabs_right by lra; pose proof PI2_1; lra).
    destruct (apart 3 1 4 0 m v3zero true _ ltac:(lia) ltac:(lia) ltac:(lia) ltac:(lia) ltac:(lia) (lla2Ecef_ok _ _ _ _ I) I) as (m' & H & _). eauto.
Qed.

(** C164: with its private members the object behaves as the model of the other
    strapdown theorems, which has none. *)
Theorem C164_integrate : forall dV dTh t o,
  integrate dV dTh t (Some (NavS (o_RB2N o) (o_pv o) (o_tov o) (o_dt o))) =
  (r <- integrate_obj dV dTh t o ;; let '(b, o') := r in Ret (b, Some (NavS (o_RB2N o') (o_pv o') (o_tov o') (o_dt o')))).
Proof. exact object_integrate. Qed.
Print Assumptions C164_integrate.
Theorem C164_initialize : forall lla vNed rph t o,
  let '(b, o') := initialize_obj lla vNed rph t o in
  initialize lla vNed rph t (Some (NavS (o_RB2N o) (o_pv o) (o_tov o) (o_dt o))) = (b, Some (NavS (o_RB2N o') (o_pv o') (o_tov o') (o_dt o'))).
Proof. exact object_initialize. Qed.
Print Assumptions C164_initialize.
(** After a call the private members hold what the public ones held before. *)
Theorem C164_previous_values : forall dV dTh t o b o', integrate_obj dV dTh t o = Ret (b, o') ->
  o_pvPrev o' = o_pv o /\ o_RB2NPrev o' = o_RB2N o /\ o_tovPrev o' = o_tov o.
Proof. exact integrate_private. Qed.
Print Assumptions C164_previous_values.
(** Whatever a program does with two objects, calls or assignments to public
    members, private members never make a difference. *)
Theorem C164_private_members_do_not_matter : forall l o o',
  o_pv o = o_pv o' -> o_RB2N o = o_RB2N o' -> o_tov o = o_tov o' -> o_dt o = o_dt o' ->
  (forall r, acts l o = Ret r -> exists r', acts l o' = Ret r' /\
     o_pv r' = o_pv r /\ o_RB2N r' = o_RB2N r /\ o_tov r' = o_tov r /\ o_dt r' = o_dt r) /\
  (acts l o = Undef -> acts l o' = Undef).
Proof. exact same_public. Qed.
Print Assumptions C164_private_members_do_not_matter.
(** Corrections written to the public members take effect in full: the next
    call starts from them, whatever the object held, inf and NaN included. *)
Theorem C164_corrections : forall lla vNed A t0 dV dTh t o,
  integrate dV dTh t (Some (NavS (Some A) (Some (lla, vNed)) t0 (o_dt o))) =
  (r <- acts [SetPv lla vNed; SetRB2N A; SetTov t0] o ;; r' <- integrate_obj dV dTh t r ;;
   let '(b, o') := r' in Ret (b, Some (NavS (o_RB2N o') (o_pv o') (o_tov o') (o_dt o')))).
Proof. intros. apply (C164_integrate dV dTh t (Obj (Some (lla, vNed)) (Some A) t0 (o_dt o) (o_pvPrev o) (o_RB2NPrev o) (o_tovPrev o))). Qed.
Print Assumptions C164_corrections.
(** An object that has lost its attitude, position and velocity, corrected and
    used for a step of ten milliseconds. *)
Example C164_case : exists o, acts [SetPv (V3 (1/2) 1 100) v3zero; SetRB2N m3id; SetTov 0; Integrate (V3 0 0 (-(1/10))) (V3 0 0 (1/1000)) 10000] (Obj None None 0 0 None None 0) = Ret o /\
  o_tov o = 10000%Z /\ o_dt o = 1 / 100 /\ (exists A, o_RB2N o = Some A) /\ o_RB2NPrev o = Some m3id.
Proof. exact object_case. Qed.
