(** Position conversions on shared memory. *)
From Coq Require Import Reals Arith ZArith Lra Lia Psatz.
From Verif Require Import Base BaseVec SpecRot SpecEarth ModelGravity ModelFrames ModelInPlace ProofVec ProofTrig ProofGravity ProofFrames.
Open Scope R_scope.

Lemma put_same m a v : put m a v a = v.
Proof. unfold put. now rewrite Nat.eqb_refl. Qed.
Lemma put_other m a v b : b <> a -> put m a v b = m b.
Proof. intros H. unfold put. destruct (Nat.eqb_spec b a); [contradiction|reflexivity]. Qed.

Lemma to_lla rE lat lon alt m b la lo al : lat <> lon -> lat <> alt -> lon <> alt ->
  ecef2Lla (V3 (m rE) (m (rE + 1)%nat) (m (rE + 2)%nat)) = Ret (b, (la, lo, al)) ->
  exists m', ecef2Lla_at rE lat lon alt m = Ret (b, m') /\ m' lat = la /\ m' lon = lo /\ m' alt = al /\
    forall c, c <> lat -> c <> lon -> c <> alt -> m' c = m c.
Proof.
  intros D1 D2 D3 H. unfold ecef2Lla, ecef2Lla_with in H. unfold ecef2Lla_at. cbn [vx vy vz] in H.
  destruct (sqrtc (1 - (1 - gp_f) * (1 - gp_f))) as [e| | | |]; try discriminate H. cbn [bind] in *.
  destruct (sqrtc ((gp_a * gp_a - gp_b * gp_b) / (gp_b * gp_b))) as [ep| | | |]; try discriminate H. cbn [bind] in *.
  destruct (sqrtc (m rE * m rE + m (rE + 1)%nat * m (rE + 1)%nat)) as [p| | | |]; try discriminate H. cbn [bind] in *.
  rewrite put_same.
  set (A := atan2 _ (p - _)) in *.
  destruct (sqrtc (1 - e * e * (sin A * sin A))) as [s| | | |]; try discriminate H. cbn [bind] in *.
  destruct (Rdivc gp_a s) as [N| | | |]; try discriminate H. cbn [bind] in *.
  destruct (Rdivc p (cos A)) as [q| | | |]; try discriminate H. cbn [bind] in *.
  rewrite (put_other _ alt _ lon) by auto. rewrite (put_other _ lat _ lon) by auto. rewrite put_same.
  destruct (fmodc (atan2 (m (rE + 1)%nat) (m rE)) (2 * PI)) as [l| | | |]; try discriminate H. cbn [bind] in *.
  injection H as <- <- <- <-. rewrite put_same. destruct (Rlt_dec PI l).
  - eexists. split; [reflexivity|]. rewrite !put_same. split; [now rewrite !put_other, put_same by auto|]. split; [reflexivity|].
    split; [now rewrite !put_other, put_same by auto|]. intros c C1 C2 C3. now rewrite !put_other by auto.
  - eexists. split; [reflexivity|]. rewrite !put_same. split; [now rewrite !put_other, put_same by auto|]. split; [reflexivity|].
    split; [now rewrite !put_other, put_same by auto|]. intros c C1 C2 C3. now rewrite !put_other by auto.
Qed.

(** What a call of lla2Ecef leaves behind. *)
Definition prime (l : R) : R := gp_a / sqrt (W2 l).
Lemma at_ok lat lon alt rE m : in_range (m lat) (m lon) ->
  let N := prime (m lat) in
  let m1 := put m rE ((N + m alt) * cos (m lat) * cos (m lon)) in
  let m2 := put m1 (rE + 1)%nat ((N + m1 alt) * cos (m1 lat) * sin (m1 lon)) in
  lla2Ecef_at lat lon alt rE m = Ret (true, put m2 (rE + 2)%nat (((1 - e2) * N + m2 alt) * sin (m2 lat))).
Proof.
  intros H. unfold lla2Ecef_at. rewrite guard_ok by auto. fold e2. cbv zeta.
  rewrite sqrtc_ok by (pose proof e2_bounds; lra). cbn [bind]. rewrite e_sqrt. fold (W2 (m lat)).
  rewrite sqrtc_ok by (pose proof (W2_bounds (m lat)); lra). cbn [bind].
  rewrite Rdivc_ok by (pose proof (sW_pos (m lat)); lra). cbn [bind]. reflexivity.
Qed.
Lemma value_ok lat lon alt r : in_range lat lon ->
  lla2Ecef lat lon alt r = Ret (true, V3 ((prime lat + alt) * cos lat * cos lon) ((prime lat + alt) * cos lat * sin lon) (((1 - e2) * prime lat + alt) * sin lat)).
Proof. intros H. rewrite lla2Ecef_ok by exact H. reflexivity. Qed.

Lemma apart lat lon alt rE m r b p : lat <> rE -> lon <> rE -> alt <> rE -> lat <> (rE + 1)%nat -> alt <> (rE + 1)%nat ->
  lla2Ecef (m lat) (m lon) (m alt) r = Ret (b, p) -> in_range (m lat) (m lon) ->
  exists m', lla2Ecef_at lat lon alt rE m = Ret (b, m') /\ m' rE = vx p /\ m' (rE + 1)%nat = vy p /\ m' (rE + 2)%nat = vz p /\
    forall c, c <> rE -> c <> (rE + 1)%nat -> c <> (rE + 2)%nat -> m' c = m c.
Proof.
  intros A1 A2 A3 A4 A5 E H. rewrite value_ok in E by exact H. injection E as <- <-.
  eexists. split; [apply at_ok; exact H|]. cbn [vx vy vz].
  split; [now rewrite !put_other, put_same by lia|]. split; [rewrite put_other by lia; rewrite put_same; now rewrite !put_other by auto|].
  split; [rewrite put_same; now rewrite !put_other by auto|]. intros c C1 C2 C3. now rewrite !put_other by auto.
Qed.
Lemma rejected lat lon alt rE m : ~ in_range (m lat) (m lon) -> lla2Ecef_at lat lon alt rE m = Ret (false, m).
Proof. intros H. unfold lla2Ecef_at. now rewrite guard_bad by exact H. Qed.

Lemma shared v m r : in_range (m v) (m (v + 1)%nat) ->
  exists x y z m', lla2Ecef (m v) (m (v + 1)%nat) (m (v + 2)%nat) r = Ret (true, V3 x y z) /\
    lla2Ecef_at v (v + 1) (v + 2) v m = Ret (true, m') /\
    m' v = x /\ m' (v + 1)%nat * cos (m v) = y * cos x /\ m' (v + 2)%nat * sin (m v) = z * sin x.
Proof.
  intros H. do 4 eexists. split; [apply value_ok; exact H|]. split; [apply at_ok; exact H|].
  set (N := prime (m v)). set (x := (N + m (v + 2)%nat) * cos (m v) * cos (m (v + 1)%nat)).
  split; [now rewrite !put_other, put_same by lia|]. split.
  - rewrite put_other by lia. rewrite put_same. rewrite (put_other _ v _ (v + 2)%nat), (put_other _ v _ (v + 1)%nat), put_same by lia. ring.
  - rewrite put_same. rewrite (put_other _ (v + 1)%nat _ (v + 2)%nat), (put_other _ v _ (v + 2)%nat), (put_other _ (v + 1)%nat _ v), put_same by lia. ring.
Qed.
Lemma W2_0 : W2 0 = 1.
Proof. unfold W2. rewrite sin_0. ring. Qed.
Lemma shared_wrong : exists h, 0 <= h <= 10 /\ forall v m r, m v = 0 -> m (v + 1)%nat = 0 -> m (v + 2)%nat = h ->
  lla2Ecef 0 0 h r = Ret (true, V3 (6378137 + h) 0 0) /\
  exists m', lla2Ecef_at v (v + 1) (v + 2) v m = Ret (true, m') /\ 6000000 <= m' (v + 2)%nat.
Proof.
  pose proof PI_RGT_0 as P. pose proof PI_4 as P4. set (k := up (6378137 / (2 * PI))).
  destruct (archimed (6378137 / (2 * PI))) as [K1 K2]. fold k in K1, K2.
  exists (2 * PI * IZR k + PI / 2 - 6378137).
  assert (L : 6378137 < 2 * PI * IZR k <= 6378137 + 2 * PI).
  { assert (E : 2 * PI * (6378137 / (2 * PI)) = 6378137) by (field; lra). set (q := 6378137 / (2 * PI)) in *.
    assert (0 < 2 * PI * (IZR k - q)) by (apply Rmult_lt_0_compat; lra).
    assert (0 <= 2 * PI * (1 - (IZR k - q))) by (apply Rmult_le_pos; lra). lra. }
  split; [pose proof PI_4; lra|]. set (h := 2 * PI * IZR k + PI / 2 - 6378137) in *.
  intros v m r E0 E1 E2. assert (I : in_range 0 0) by (unfold in_range; rewrite Rabs_R0; lra).
  assert (N : prime 0 = 6378137) by (unfold prime; rewrite W2_0, sqrt_1; unfold gp_a; field).
  split; [rewrite value_ok by exact I; rewrite N, sin_0, cos_0; do 3 f_equal; ring|].
  eexists. split; [apply at_ok; rewrite E0, E1; exact I|].
  rewrite put_same. rewrite (put_other _ (v + 1)%nat _ (v + 2)%nat), (put_other _ v _ (v + 2)%nat), (put_other _ (v + 1)%nat _ v), put_same by lia.
  rewrite E0, E1, E2, N, cos_0. replace ((6378137 + h) * 1 * 1) with (PI / 2 + 2 * IZR k * PI) by (unfold h; ring).
  assert (S : sin (PI / 2 + 2 * IZR k * PI) = 1).
  { rewrite sin_plus. replace (2 * IZR k * PI) with (2 * (IZR k * PI)) by ring. rewrite cos_2a_sin, sin_2a.
    assert (sin (IZR k * PI) = 0) as -> by (apply sin_eq_0_1; now exists k). rewrite sin_PI2, cos_PI2. ring. }
  rewrite S. pose proof e2_bounds. unfold h. nra.
Qed.
