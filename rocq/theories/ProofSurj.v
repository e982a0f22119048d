(** Every point away from the centre of the Earth has geodetic coordinates. *)
From Coq Require Import Reals Lra Lia Psatz.
From Coquelicot Require Import Coquelicot.
From Verif Require Import Base BaseVec SpecEarth ModelGravity ModelFrames ProofPi ProofVec ProofTrig ProofFrames ProofFrames2 ProofFrames3 ProofBowring.
Open Scope R_scope.

Definition gap (rh z l : R) : R := rh * sin l - z * cos l - e2 * Nr l * (sin l * cos l).
Lemma gap_cont rh z : Ranalysis1.continuity (gap rh z).
Proof.
  intros l. apply derivable_continuous_pt. apply ex_derive_Reals_0. unfold gap.
  assert (D : ex_derive Nr l) by (eexists; apply derive_Nr). auto_derive. auto.
Qed.
Lemma root_pos rh z : 0 <= rh -> 0 <= z -> exists l, 0 <= l <= PI / 2 /\ gap rh z l = 0.
Proof.
  intros H1 H2. pose proof PI_RGT_0.
  assert (A : gap rh z 0 = - z) by (unfold gap; rewrite sin_0, cos_0; ring).
  assert (B : gap rh z (PI / 2) = rh) by (unfold gap; rewrite sin_PI2, cos_PI2; ring).
  destruct (IVT_gen (gap rh z) 0 (PI / 2) 0 (gap_cont rh z)) as (l & L & E).
  - rewrite A, B. rewrite Rmin_left, Rmax_right by lra. lra.
  - rewrite Rmin_left, Rmax_right in L by lra. exists l. auto.
Qed.
Lemma Nr_even l : Nr (- l) = Nr l.
Proof. unfold Nr, W2. rewrite sin_neg. replace (- sin l * - sin l) with (sin l * sin l) by ring. reflexivity. Qed.
Lemma root rh z : 0 <= rh -> exists l, Rabs l <= PI / 2 /\ gap rh z l = 0 /\ 0 <= rh * cos l + z * sin l.
Proof.
  intros H1. pose proof PI_RGT_0. destruct (Rle_dec 0 z) as [H2|H2].
  - destruct (root_pos rh z H1 H2) as (l & L & E). exists l. split; [rewrite Rabs_right; lra|]. split; [exact E|].
    assert (0 <= cos l) by (apply cos_ge_0; lra). assert (0 <= sin l) by (apply sin_ge_0; lra). nra.
  - destruct (root_pos rh (- z) H1 ltac:(lra)) as (l & L & E). exists (- l). split; [rewrite Rabs_Ropp, Rabs_right; lra|].
    unfold gap in *. rewrite Nr_even, sin_neg, cos_neg. split; [lra|].
    assert (0 <= cos l) by (apply cos_ge_0; lra). assert (0 <= sin l) by (apply sin_ge_0; lra). nra.
Qed.
(** The meridian plane. *)
Lemma meridian_surjective rh z : 0 <= rh -> exists l h, Rabs l <= PI / 2 /\
  (Nr l + h) * cos l = rh /\ ((1 - e2) * Nr l + h) * sin l = z /\
  0 <= h + gp_a * sqrt (W2 l) /\ rh * rh + z * z <= (h + gp_a * sqrt (W2 l)) * (h + gp_a * sqrt (W2 l)) + 22000 * 22000 /\
  (h + gp_a * sqrt (W2 l)) * (h + gp_a * sqrt (W2 l)) <= rh * rh + z * z.
Proof.
  intros H. destruct (root rh z H) as (l & L & E & D). exists l, (rh * cos l + z * sin l - gp_a * sqrt (W2 l)).
  split; [exact L|]. unfold gap in E. pose proof (sW_sq l) as S. pose proof (sW_pos l) as P.
  assert (N : gp_a * sqrt (W2 l) = Nr l * (1 - e2 * (sin l * sin l))).
  { fold (W2 l). unfold Nr. rewrite <- S at 3. field. lra. }
  rewrite N. assert (T : cos l * cos l = 1 - sin l * sin l) by (pose proof (sin2_cos2 l) as Q; unfold Rsqr in Q; lra).
  pose proof (Nr_bounds l) as NB. unfold gp_a in NB. pose proof e2_bounds as EB.
  set (c := cos l) in *. set (s := sin l) in *. set (n := Nr l) in *. clearbody c s n.
  assert (K : rh * s - z * c = e2 * n * (s * c)) by lra.
  replace (rh * c + z * s - n * (1 - e2 * (s * s)) + n * (1 - e2 * (s * s))) with (rh * c + z * s) by ring.
  assert (SC : (s * c) * (s * c) <= 1 / 4).
  { replace ((s * c) * (s * c)) with ((s * s) * (c * c)) by ring. rewrite T. pose proof (Rle_0_sqr (s * s - 1 / 2)) as Q. unfold Rsqr in Q. lra. }
  assert (Q : (rh * c + z * s) * (rh * c + z * s) + (rh * s - z * c) * (rh * s - z * c) = rh * rh + z * z).
  { replace ((rh * c + z * s) * (rh * c + z * s) + (rh * s - z * c) * (rh * s - z * c)) with ((rh * rh + z * z) * (s * s + c * c)) by ring.
    rewrite T. ring. }
  assert (G : (rh * s - z * c) * (rh * s - z * c) <= 22000 * 22000).
  { rewrite K. replace (e2 * n * (s * c) * (e2 * n * (s * c))) with ((e2 * n) * (e2 * n) * ((s * c) * (s * c))) by ring.
    assert (EN : 0 <= e2 * n <= 43500) by nra. assert ((e2 * n) * (e2 * n) <= 43500 * 43500) by nra.
    pose proof (Rle_0_sqr (s * c)) as Z. unfold Rsqr in Z. apply Rle_trans with (43500 * 43500 * (1 / 4)); [|lra].
    apply Rmult_le_compat; nra. }
  pose proof (Rle_0_sqr (rh * s - z * c)) as Z. unfold Rsqr in Z.
  repeat split; try lra.
  - replace ((n + (rh * c + z * s - n * (1 - e2 * (s * s)))) * c) with (rh * (c * c) + z * s * c + s * (e2 * n * (s * c))) by ring.
    rewrite <- K, T. ring.
  - replace (((1 - e2) * n + (rh * c + z * s - n * (1 - e2 * (s * s)))) * s) with (rh * c * s + z * (s * s) - e2 * n * s * (1 - s * s)) by ring.
    rewrite <- T. replace (e2 * n * s * (c * c)) with (c * (e2 * n * (s * c))) by ring. rewrite <- K.
    replace (z * (s * s)) with (z * (1 - c * c)) by (rewrite T; ring). ring.
Qed.
Lemma lon_exists x y : exists lon, - PI < lon <= PI /\ x = sqrt (x * x + y * y) * cos lon /\ y = sqrt (x * x + y * y) * sin lon.
Proof.
  destruct (Req_dec x 0) as [X|X]; [destruct (Req_dec y 0) as [Y|Y]|].
  - exists 0. subst. pose proof PI_RGT_0. replace (0 * 0 + 0 * 0) with 0 by ring. rewrite sqrt_0. lra.
  - exists (atan2 y x). split; [apply atan2_range|]. destruct (atan2_polar y x) as (A & B); auto. rewrite A, B.
    assert (0 < x * x + y * y) by nra. assert (0 < sqrt (x * x + y * y)) by now apply sqrt_lt_R0. split; field; lra.
  - exists (atan2 y x). split; [apply atan2_range|]. destruct (atan2_polar y x) as (A & B); auto. rewrite A, B.
    assert (0 < x * x + y * y) by nra. assert (0 < sqrt (x * x + y * y)) by now apply sqrt_lt_R0. split; field; lra.
Qed.
Lemma lla2Ecef_surjective p r : 50000 <= norm p -> exists lat lon alt,
  Rabs lat <= PI / 2 /\ - PI < lon <= PI /\ - (earth_a * (1 - earth_f)^2) < alt /\ lla2Ecef lat lon alt r = Ret (true, p).
Proof.
  intros H. set (rh := sqrt (vx p * vx p + vy p * vy p)).
  assert (R0 : 0 <= rh) by apply sqrt_pos. assert (R2 : rh * rh = vx p * vx p + vy p * vy p).
  { apply sqrt_sqrt. pose proof (Rle_0_sqr (vx p)). pose proof (Rle_0_sqr (vy p)). unfold Rsqr in *. lra. }
  destruct (meridian_surjective rh (vz p) R0) as (l & h & L & E1 & E2 & D & B & _).
  destruct (lon_exists (vx p) (vy p)) as (lon & LL & X & Y). fold rh in X, Y.
  exists l, lon, h. split; [exact L|]. split; [exact LL|].
  assert (NN : rh * rh + vz p * vz p = norm p * norm p) by (rewrite norm_sq, R2; unfold dot; reflexivity).
  split.
  - rewrite NN in B. pose proof (sW_bounds l) as W. set (q := h + gp_a * sqrt (W2 l)) in *.
    assert (43000 < q) by nra. unfold earth_a, earth_f, q, gp_a in *. nra.
  - rewrite lla2Ecef_ok by (split; [lra|]; apply Rabs_le; lra). unfold ecef. do 2 f_equal.
    rewrite E1, E2. destruct p as [x y z]. cbn [vx vy vz] in *. congruence.
Qed.
Lemma sin_lip1 a b : Rabs (sin a - sin b) <= Rabs (a - b).
Proof.
  destruct (MVT_abs sin cos b a) as (c & E & _). { intros. apply derivable_pt_lim_sin. }
  rewrite E. assert (Rabs (cos c) <= 1) by (apply Rabs_le, COS_bound). pose proof (Rabs_pos (a - b)). nra.
Qed.
(** Near the surface, the two conversions in turn move a point by less than two
    millimetres. *)
Lemma ecef_round_trip p r : 0 < vx p * vx p + vy p * vy p -> 6300000 <= norm p <= 6450000 ->
  exists lat lon alt p', ecef2Lla p = Ret (true, (lat, lon, alt)) /\ - (PI / 2) < lat < PI / 2 /\ - PI < lon <= PI /\
    lla2Ecef lat lon alt r = Ret (true, p') /\ norm (vsub p' p) <= 2 / 1000.
Proof.
  intros HR HN. set (rh := sqrt (vx p * vx p + vy p * vy p)).
  assert (R0 : 0 < rh) by now apply sqrt_lt_R0. assert (R2 : rh * rh = vx p * vx p + vy p * vy p) by (apply sqrt_sqrt; lra).
  destruct (meridian_surjective rh (vz p) ltac:(lra)) as (l & h & L & E1 & E2 & D & B & C).
  destruct (lon_exists (vx p) (vy p)) as (lon & LL & X & Y). fold rh in X, Y.
  assert (NN : rh * rh + vz p * vz p = norm p * norm p) by (rewrite norm_sq, R2; unfold dot; reflexivity).
  rewrite NN in B, C. pose proof (sW_bounds l) as W. set (q := h + gp_a * sqrt (W2 l)) in *.
  assert (Q : 6299900 < q <= 6450000) by nra.
  assert (W' : 0.9966 < sqrt (W2 l)).
  { rewrite <- (sqrt_square 0.9966) by lra. apply sqrt_lt_1_alt. pose proof (sin2_cos2 l) as T. unfold Rsqr in T.
    pose proof (Rle_0_sqr (cos l)) as T2. unfold Rsqr in T2. unfold W2. pose proof e2_bounds as EB.
    assert (e2 < 0.0066944) by (unfold e2, gp_f; lra). split; [lra|]. assert (e2 * (sin l * sin l) <= e2 * 1) by (apply Rmult_le_compat_l; lra). lra. }
  assert (HB : -100000 <= h <= 100000) by (unfold q, gp_a in Q; lra).
  assert (LS : - (PI / 2) < l < PI / 2).
  { assert (L2 : - (PI / 2) <= l <= PI / 2) by (unfold Rabs in L; destruct (Rcase_abs l); lra). assert (l <> PI / 2) by (intros ->; rewrite cos_PI2 in E1; lra).
    assert (l <> - (PI / 2)) by (intros ->; rewrite cos_neg, cos_PI2 in E1; lra). lra. }
  destruct (geodetic_round_trip l lon h r LS LL ltac:(lra)) as (p0 & l' & h' & A1 & A2 & A3 & _ & _ & A4).
  destruct (A4 ltac:(lra)) as (A5 & A6). clear A4.
  assert (P0 : p0 = p).
  { rewrite lla2Ecef_ok in A1 by (split; apply Rabs_le; lra). injection A1 as <-. unfold ecef. rewrite E1, E2.
    destruct p as [x y z]. cbn [vx vy vz] in *. congruence. }
  subst p0. exists l', lon, h'.
  destruct (ecef_round_trip_xy p r l' lon h' A2 ltac:(split; apply Rabs_le; lra)) as (z & Z).
  exists (V3 (vx p) (vy p) z). do 4 (split; [assumption|]).
  assert (ZE : z = ((1 - e2) * Nr l' + h') * sin l').
  { rewrite lla2Ecef_ok in Z by (split; apply Rabs_le; lra). injection Z as _ _ Z. auto. }
  replace (norm (vsub (V3 (vx p) (vy p) z) p)) with (Rabs (z - vz p)).
  - rewrite ZE, <- E2. pose proof (Nr_lipschitz l l') as NL. pose proof e2_bounds as EB. pose proof (Nr_bounds l) as NB. unfold gp_a in NB.
    pose proof (sin_lip1 l' l) as SL. set (dn := Nr l' - Nr l) in *. set (ds := sin l' - sin l) in *.
    replace (((1 - e2) * Nr l' + h') * sin l' - ((1 - e2) * Nr l + h) * sin l) with
      (((1 - e2) * dn + (h' - h)) * sin l' + ((1 - e2) * Nr l + h) * ds) by (unfold dn, ds; ring).
    assert (DN : Rabs dn <= 0.0000044) by lra. assert (DS : Rabs ds <= 0.0000000001) by lra.
    assert (M : Rabs ((1 - e2) * Nr l + h) <= 6550000) by (apply Rabs_le; nra).
    assert (K : Rabs ((1 - e2) * dn + (h' - h)) <= 0.0010044).
    { eapply Rle_trans; [apply Rabs_triang|]. rewrite Rabs_mult, (Rabs_right (1 - e2)) by lra. pose proof (Rabs_pos dn). nra. }
    assert (SB : Rabs (sin l') <= 1) by (apply Rabs_le, SIN_bound).
    eapply Rle_trans; [apply Rabs_triang|]. rewrite !Rabs_mult.
    assert (Rabs ((1 - e2) * dn + (h' - h)) * Rabs (sin l') <= 0.0010044 * 1) by (apply Rmult_le_compat; auto using Rabs_pos).
    assert (Rabs ((1 - e2) * Nr l + h) * Rabs ds <= 6550000 * 0.0000000001) by (apply Rmult_le_compat; auto using Rabs_pos). lra.
  - unfold norm, dot, vsub. cbn [vx vy vz]. rewrite <- sqrt_Rsqr_abs. f_equal. unfold Rsqr. ring.
Qed.
Lemma geodetic_unique p r : 50000 <= norm p -> 0 < vx p * vx p + vy p * vy p ->
  exists! g : R * R * R, let '(lat, lon, alt) := g in
    - (PI / 2) < lat < PI / 2 /\ - PI < lon <= PI /\ - (earth_a * (1 - earth_f)^2) < alt /\ lla2Ecef lat lon alt r = Ret (true, p).
Proof.
  intros H HR. destruct (lla2Ecef_surjective p r H) as (lat & lon & alt & A & B & C & E).
  assert (LS : - (PI / 2) < lat < PI / 2).
  { assert (L2 : - (PI / 2) <= lat <= PI / 2) by (unfold Rabs in A; destruct (Rcase_abs lat); lra).
    rewrite lla2Ecef_ok in E by (split; [lra|apply Rabs_le; lra]). injection E as E. unfold ecef in E.
    assert (Z : cos lat <> 0).
    { intros Z. rewrite <- E in HR. cbn [vx vy] in HR. rewrite Z in HR. lra. }
    assert (lat <> PI / 2) by (intros ->; now rewrite cos_PI2 in Z).
    assert (lat <> - (PI / 2)) by (intros ->; rewrite cos_neg, cos_PI2 in Z; lra). lra. }
  exists (lat, lon, alt). split; [auto|]. intros ((lat2 & lon2) & alt2) (A2 & B2 & C2 & E2).
  destruct (lla2Ecef_injective lat lon alt lat2 lon2 alt2 r r) as (-> & -> & ->); auto. congruence.
Qed.
