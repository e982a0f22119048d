(** Accuracy of ecef2Lla's closed formula on the image of lla2Ecef. *)
From Coq Require Import Reals Lra Lia Psatz.
From Coquelicot Require Import Rcomplements Derive.
From Verif Require Import Base BaseVec SpecEarth ModelGravity ModelFrames ProofVec ProofTrig ProofGravity ProofFrames ProofFrames3.
From Verif Require ProofFrames2.
Open Scope R_scope.

(** The trigonometric identity behind the quadratic error:
    C, S are cos/sin of the reduced latitude, c, s those of the auxiliary angle. *)
Lemma bowring_identity C S c s : C * C + S * S = 1 -> c * c + s * s = 1 ->
  let k := c * C + s * S in let j := s * C - c * S in
  S * (c * c * c) + C * (s * s * s) - S * C
  = S * C * ((1 - k) * (2 * (k * k) + 2 * k - 1)) + j * j * j * (C * C - S * S).
Proof.
  intros H1 H2 k j.
  assert (Ec : c = C * k - S * j) by (unfold k, j; transitivity (c * (C * C + S * S)); [rewrite H1|]; ring).
  assert (Es : s = S * k + C * j) by (unfold k, j; transitivity (s * (C * C + S * S)); [rewrite H1|]; ring).
  assert (Ek : k * k = 1 - j * j).
  { assert (k * k + j * j = (C * C + S * S) * (c * c + s * s)) by (unfold k, j; ring). rewrite H1, H2 in H. lra. }
  rewrite Ec, Es. clearbody k j. clear Ec Es H2.
  transitivity (S * C * (k * k * k) * (C * C + S * S) + 3 * (S * C * k * (j * j)) * (C * C + S * S)
     + j * j * j * ((C * C - S * S) * (C * C + S * S)) - S * C); [ring|].
  rewrite H1. replace (j * j) with (1 - k * k) by lra. ring.
Qed.

(** Relative size of the auxiliary-angle error and the resulting direction error. *)
Lemma bowring_core C S c s eps E : 0 < C -> 0 < c -> C * C + S * S = 1 -> c * c + s * s = 1 ->
  s * C = (1 + eps) * (c * S) -> Rabs eps <= E -> E <= 0.0068 ->
  Rabs (S * (c * c * c) + C * (s * s * s) - S * C) <= C * (0.39 * (E * E) + 1.03 * (E * E * E)).
Proof.
  intros HC Hc H1 H2 Ht He HE.
  rewrite bowring_identity by auto. cbv zeta.
  assert (Ej : s * C - c * S = eps * (c * S)) by lra. rewrite Ej.
  set (k := c * C + s * S).
  apply Rabs_le_between in He.
  (* c <= 1.001 C *)
  assert (Kc : c <= 1.007 * C).
  { assert (X : C * C = (c * c) * (C * C + ((1 + eps) * S) * ((1 + eps) * S))).
    { transitivity (C * C * (c * c + s * s)); [rewrite H2; ring|].
      transitivity (c * c * (C * C) + (s * C) * (s * C)); [ring|]. rewrite Ht. ring. }
    assert (Y : 0.986 * (S * S) <= ((1 + eps) * S) * ((1 + eps) * S)).
    { replace (((1 + eps) * S) * ((1 + eps) * S)) with (((1 + eps) * (1 + eps)) * (S * S)) by ring.
      apply Rmult_le_compat_r; [nra|]. nra. }
    assert (Y' : 0.986 <= C * C + ((1 + eps) * S) * ((1 + eps) * S)) by nra.
    assert (0.986 * (c * c) <= C * C).
    { rewrite X, Rmult_comm. apply Rmult_le_compat_l; [nra|auto]. }
    nra. }
  assert (SC : Rabs (C * S) <= 1/2).
  { apply Rabs_le. pose proof (Rle_0_sqr (C - S)). pose proof (Rle_0_sqr (C + S)). unfold Rsqr in *. lra. }
  assert (S1 : Rabs S <= 1) by (apply Rabs_le; nra).
  assert (cS : Rabs (c * S) <= 0.504).
  { rewrite Rabs_mult, (Rabs_right c) by lra. rewrite Rabs_mult, (Rabs_right C) in SC by lra.
    pose proof (Rabs_pos S). nra. }
  assert (J1 : Rabs (eps * (c * S)) <= 0.504 * E).
  { rewrite Rabs_mult. pose proof (Rabs_pos eps). pose proof (Rabs_pos (c * S)).
    assert (Rabs eps <= E) by (apply Rabs_le; lra). nra. }
  set (j := eps * (c * S)) in *.
  assert (JJ : j * j <= 0.2541 * (E * E)).
  { replace (j * j) with (Rabs j * Rabs j) by (rewrite <- Rabs_mult; apply Rabs_right; nra).
    pose proof (Rabs_pos j). nra. }
  assert (Kk : k * k = 1 - j * j).
  { assert (k * k + j * j = (C * C + S * S) * (c * c + s * s)) by (unfold k; rewrite <- Ej; ring). rewrite H1, H2 in H. lra. }
  assert (k0 : 0 < k).
  { assert (k * C = c * (C * C) + (s * C) * S) by (unfold k; ring). rewrite Ht in H.
    assert (0 <= (1 + eps) * (c * (S * S))) by (apply Rmult_le_pos; [lra|apply Rmult_le_pos; nra]).
    assert (0 < c * (C * C)) by (apply Rmult_lt_0_compat; nra).
    assert (0 < k * C) by lra. nra. }
  assert (E2 : E * E <= 0.0068 * 0.0068) by nra.
  assert (k1 : 0.999 <= k <= 1) by (split; nra).
  assert (k2 : 1 - k <= 0.501 * (j * j)) by nra.
  set (A := S * C * ((1 - k) * (2 * (k * k) + 2 * k - 1))).
  assert (HA : Rabs A <= C * (0.39 * (E * E))).
  { unfold A. rewrite !Rabs_mult, (Rabs_right C), (Rabs_right (1 - k)), (Rabs_right (2 * (k * k) + 2 * k - 1)) by nra.
    replace (Rabs S * C * ((1 - k) * (2 * (k * k) + 2 * k - 1)))
      with (C * (Rabs S * ((1 - k) * (2 * (k * k) + 2 * k - 1)))) by ring.
    apply Rmult_le_compat_l; [lra|].
    assert ((1 - k) * (2 * (k * k) + 2 * k - 1) <= 0.39 * (E * E)).
    { apply Rle_trans with ((1 - k) * 3); [apply Rmult_le_compat_l; nra|]. lra. }
    assert (0 <= (1 - k) * (2 * (k * k) + 2 * k - 1)) by (apply Rmult_le_pos; nra).
    pose proof (Rabs_pos S). nra. }
  assert (HB : Rabs (j * j * j * (C * C - S * S)) <= C * (1.03 * (E * E * E))).
  { rewrite !Rabs_mult. 
    assert (D : Rabs (C * C - S * S) <= 1) by (apply Rabs_le; nra).
    assert (J2 : Rabs j <= E * (1.007 * C)).
    { unfold j. rewrite !Rabs_mult, (Rabs_right c) by lra.
      assert (Rabs eps <= E) by (apply Rabs_le; lra).
      pose proof (Rabs_pos eps). pose proof (Rabs_pos S).
      apply Rmult_le_compat; auto; [apply Rmult_le_pos; lra|]. nra. }
    assert (J3 : Rabs j <= E) by (pose proof (Rabs_pos j); lra).
    pose proof (Rabs_pos j). pose proof (Rabs_pos (C * C - S * S)).
    assert (0 <= E) by lra.
    apply Rle_trans with (E * (1.007 * C) * E * E * 1).
    - apply Rmult_le_compat; auto; [|].
      + apply Rmult_le_pos; auto. apply Rmult_le_pos; auto.
      + apply Rmult_le_compat; auto; [apply Rmult_le_pos; auto|]. apply Rmult_le_compat; auto.
    - assert (0 <= C * (E * E * E)) by (apply Rmult_le_pos; [lra|]; apply Rmult_le_pos; nra). nra. }
  rewrite Rmult_plus_distr_l. eapply Rle_trans; [apply Rabs_triang|]. lra.
Qed.

Lemma cube_bound u v : u * u + v * v = 1 -> -1 <= u * u * u <= 1.
Proof. intros. assert (-1 <= u <= 1) by nra. assert (0 <= u * u <= 1) by nra. split; nra. Qed.

Lemma prod_bound k u m : -m <= k <= m -> -1 <= u <= 1 -> - m <= k * u <= m.
Proof. intros. split; nra. Qed.
Lemma cos_bound_abs k x m : -m <= k <= m -> - m <= k * cos x <= m.
Proof. intros. apply prod_bound; auto. apply COS_bound. Qed.
Lemma sin_bound_abs k x m : -m <= k <= m -> - m <= k * sin x <= m.
Proof. intros. apply prod_bound; auto. apply SIN_bound. Qed.

Lemma small_prod g x : 1 <= g <= 1.00000000001 -> -0.0068 <= x <= 0.0068 ->
  Rabs ((g - 1) * (1 + x)) <= 0.00000001.
Proof.
  intros. rewrite Rabs_right by (apply Rle_ge, Rmult_le_pos; lra).
  apply Rle_trans with (0.00000000001 * 2); [apply Rmult_le_compat|]; lra.
Qed.

(** Constants of the two slightly different ellipsoids used by the code. *)
Definition k0 : R := gp_a * e2 / (1 - gp_f).
Definition k1 : R := ep2 * gp_b.
Lemma k0_bounds : 0 < k0 < 42900.
Proof. unfold k0, e2, gp_a, gp_f. split; lra. Qed.
Lemma k1_k0 : Rabs (k1 - k0) <= 0.00009.
Proof. apply Rabs_le. unfold k1, k0, ep2, e2, gp_a, gp_b, gp_f. split; lra. Qed.
Lemma ea_bounds : 0 < e2 * gp_a < 42900.
Proof. unfold e2, gp_a, gp_f. lra. Qed.

Definition beta (E : R) := 42900 * (0.39 * (E * E) + 1.03 * (E * E * E)) + 0.00009.

(** The direction (latX, latY) in the basis (n, t) of the true latitude. *)
Lemma bowring_direction lat lon h r E : - (PI/2) < lat < PI/2 -> in_range lat lon -> -100000 <= h ->
  r = ecef lat lon h ->
  E <= 0.0068 ->
  Rabs (e2 / (1 - e2) * (h / (Nr lat + h))) + 0.00000001 <= E ->
  exists A B, latX_of r = A * cos lat - B * sin lat /\ latY_of r = A * sin lat + B * cos lat /\
    Rabs B <= cos lat * beta E /\ 6000000 < A /\ 0.94 * (Nr lat + h) <= A /\ rho r = (Nr lat + h) * cos lat.
Proof.
  intros Hl I Hh -> HE HEps.
  assert (HC : 0 < cos lat) by (apply cos_gt_0; lra).
  pose proof (Nr_bounds lat) as HN. unfold gp_a in HN.
  pose proof (ProofFrames2.Mr_bounds lat) as HM.
  pose proof e2_bounds as Be. pose proof (sW_pos lat) as Q0. pose proof (sW_sq lat) as QQ. pose proof (sW_bounds lat) as QB.
  pose proof (cs1 lat) as CS. pose proof (cs1 lon) as CSl.
  set (q := sqrt (W2 lat)) in *.
  assert (f1 : 0.996 < 1 - gp_f < 0.997) by (unfold gp_f; lra).
  assert (ff : (1 - gp_f) * (1 - gp_f) = 1 - e2) by (unfold e2; ring).
  assert (Er : rho (ecef lat lon h) = (Nr lat + h) * cos lat).
  { unfold rho, ecef; cbn [vx vy].
    replace ((Nr lat + h) * cos lat * cos lon * ((Nr lat + h) * cos lat * cos lon) +
             (Nr lat + h) * cos lat * sin lon * ((Nr lat + h) * cos lat * sin lon))
      with ((Nr lat + h) * cos lat * ((Nr lat + h) * cos lat) * (cos lon * cos lon + sin lon * sin lon)) by ring.
    rewrite CSl, Rmult_1_r. apply sqrt_square. apply Rmult_le_pos; lra. }
  assert (P0 : 0 < rho (ecef lat lon h)) by (rewrite Er; apply Rmult_lt_0_compat; lra).
  destruct (th_polar _ P0) as (D0 & DD & Cth & Sth).
  set (D := sqrt (gp_b * rho (ecef lat lon h) * (gp_b * rho (ecef lat lon h)) +
                  gp_a * vz (ecef lat lon h) * (gp_a * vz (ecef lat lon h)))) in *.
  clearbody D.
  assert (Bp : 0 < gp_b) by (unfold gp_b; lra).
  assert (Hc : 0 < cos (th_of (ecef lat lon h))).
  { rewrite Cth. apply Rdiv_lt_0_compat; auto. apply Rmult_lt_0_compat; auto. }
  pose proof (cs1 (th_of (ecef lat lon h))) as cs.
  set (c := cos (th_of (ecef lat lon h))) in *. set (s := sin (th_of (ecef lat lon h))) in *.
  set (C := cos lat / q). set (S := (1 - gp_f) * sin lat / q).
  assert (HC' : 0 < C) by (apply Rdiv_lt_0_compat; auto).
  assert (CS1 : C * C + S * S = 1).
  { unfold C, S. replace (cos lat / q * (cos lat / q) + (1 - gp_f) * sin lat / q * ((1 - gp_f) * sin lat / q))
      with ((cos lat * cos lat + (1 - gp_f) * (1 - gp_f) * (sin lat * sin lat)) / (q * q)) by (field; lra).
    rewrite QQ, ff. replace (cos lat * cos lat + (1 - e2) * (sin lat * sin lat)) with (W2 lat) by (unfold W2; lra).
    field. pose proof (W2_bounds lat); lra. }
  set (x := e2 / (1 - e2) * (h / (Nr lat + h))) in *.
  set (g := gp_a * (1 - gp_f) / gp_b).
  assert (Hg : 1 <= g <= 1.00000000001) by (unfold g, gp_a, gp_f, gp_b; split; lra).
  set (eps := g * (1 + x) - 1).
  assert (Heps : Rabs eps <= E).
  { assert (Rabs x <= 0.0068) by lra. apply Rabs_le_between in H.
    assert (eps = x + (g - 1) * (1 + x)) by (unfold eps; ring).
    rewrite H0. eapply Rle_trans; [apply Rabs_triang|].
    assert (Rabs ((g - 1) * (1 + x)) <= 0.00000001). { apply small_prod; lra. }
    lra. }
  assert (Ht : s * C = (1 + eps) * (c * S)).
  { rewrite Cth, Sth, Er. unfold C, S, eps, g, x. unfold ecef; cbn [vz].
    replace (1 + (gp_a * (1 - gp_f) / gp_b * (1 + e2 / (1 - e2) * (h / (Nr lat + h))) - 1))
      with (gp_a * (1 - gp_f) / gp_b * (1 + e2 / (1 - e2) * (h / (Nr lat + h)))) by ring.
    transitivity (gp_a * (((1 - e2) * Nr lat + h) * sin lat) * cos lat / (D * q)); [field; lra|].
    transitivity (gp_a * ((1 - gp_f) * (1 - gp_f)) * (Nr lat + h + e2 / (1 - e2) * h) * cos lat * sin lat / (D * q));
      [|field; repeat split; lra].
    rewrite ff. field. repeat split; lra. }
  pose proof (bowring_core C S c s eps E HC' Hc CS1 cs Ht Heps HE) as G.
  (* exact foot-point identities *)
  assert (Xc : (Nr lat + h) * cos lat - e2 * gp_a * (C * C * C) = (Mr lat + h) * cos lat).
  { unfold C, Mr, Nr. fold q.
    replace (W2 lat) with (q * q) by auto.
    assert (Y : cos lat * cos lat = 1 - sin lat * sin lat) by lra.
    transitivity (h * cos lat + gp_a * cos lat * (q * q - e2 * (cos lat * cos lat)) / (q * q * q)); [field; lra|].
    rewrite Y. replace (q * q - e2 * (1 - sin lat * sin lat)) with (1 - e2) by (rewrite QQ; unfold W2; ring).
    field. lra. }
  assert (Zc : ((1 - e2) * Nr lat + h) * sin lat + k0 * (S * S * S) = (Mr lat + h) * sin lat).
  { unfold S, k0, Mr, Nr. fold q.
    replace (W2 lat) with (q * q) by auto.
    transitivity (h * sin lat + gp_a * sin lat * ((1 - e2) * (q * q) + e2 * ((1 - gp_f) * (1 - gp_f)) * (sin lat * sin lat)) / (q * q * q)); [field; lra|].
    rewrite ff. replace ((1 - e2) * (q * q) + e2 * (1 - e2) * (sin lat * sin lat)) with (1 - e2)
      by (rewrite QQ; unfold W2; ring).
    field. lra. }
  assert (LX : latX_of (ecef lat lon h) = (Mr lat + h) * cos lat - e2 * gp_a * (c * c * c - C * C * C)).
  { unfold latX_of. fold c. rewrite Er. rewrite <- Xc. ring. }
  assert (LY : latY_of (ecef lat lon h) = (Mr lat + h) * sin lat + (k1 * (s * s * s) - k0 * (S * S * S))).
  { unfold latY_of. fold s. unfold ecef; cbn [vz]. rewrite <- Zc. unfold k1. ring. }
  assert (HA : Mr lat + h - 171610 <= latX_of (ecef lat lon h) * cos lat + latY_of (ecef lat lon h) * sin lat).
  { assert (EA : latX_of (ecef lat lon h) * cos lat + latY_of (ecef lat lon h) * sin lat
      = (Mr lat + h) + (- (e2 * gp_a) * (c * c * c - C * C * C) * cos lat + (k1 * (s * s * s) - k0 * (S * S * S)) * sin lat)).
    { rewrite LX, LY. transitivity ((Mr lat + h) * (cos lat * cos lat + sin lat * sin lat) + (- (e2 * gp_a) * (c * c * c - C * C * C) * cos lat + (k1 * (s * s * s) - k0 * (S * S * S)) * sin lat)); [ring|]. rewrite CS. ring. }
    rewrite EA.
    pose proof (cube_bound c s cs). pose proof (cube_bound C S CS1).
    pose proof (cube_bound s c ltac:(lra)). pose proof (cube_bound S C ltac:(lra)).
    pose proof k0_bounds. pose proof k1_k0 as K. apply Rabs_le_between in K. pose proof ea_bounds.
    assert (T1 : -85800 <= - (e2 * gp_a) * (c * c * c - C * C * C) <= 85800).
    { pose proof (prod_bound (e2 * gp_a) (c * c * c) 42900). pose proof (prod_bound (e2 * gp_a) (C * C * C) 42900). lra. }
    assert (T2 : -85810 <= k1 * (s * s * s) - k0 * (S * S * S) <= 85810).
    { pose proof (prod_bound k1 (s * s * s) 42901). pose proof (prod_bound k0 (S * S * S) 42900). lra. }
    set (t1 := - (e2 * gp_a) * (c * c * c - C * C * C)) in *. set (t2 := k1 * (s * s * s) - k0 * (S * S * S)) in *.
    pose proof (cos_bound_abs t1 lat 85800 ltac:(lra)). pose proof (sin_bound_abs t2 lat 85810 ltac:(lra)). lra. }
  exists (latX_of (ecef lat lon h) * cos lat + latY_of (ecef lat lon h) * sin lat),
         (- latX_of (ecef lat lon h) * sin lat + latY_of (ecef lat lon h) * cos lat).
  split; [|split; [|split; [|split; [|split]]]]; auto.
  - set (u := latX_of _). set (v := latY_of _). transitivity (u * (cos lat * cos lat + sin lat * sin lat)); [rewrite CS|]; ring.
  - set (u := latX_of _). set (v := latY_of _). transitivity (v * (cos lat * cos lat + sin lat * sin lat)); [rewrite CS|]; ring.
  - (* B *)
    assert (EB : - latX_of (ecef lat lon h) * sin lat + latY_of (ecef lat lon h) * cos lat
       = q * k0 * (S * (c * c * c) + C * (s * s * s) - S * C) + cos lat * ((k1 - k0) * (s * s * s))).
    { rewrite LX, LY.
      assert (Sl : sin lat = q * S / (1 - gp_f)) by (unfold S; field; lra).
      assert (Cl : cos lat = q * C) by (unfold C; field; lra).
      transitivity (e2 * gp_a * sin lat * (c * c * c - C * C * C) + k0 * cos lat * (s * s * s - S * S * S)
        + cos lat * ((k1 - k0) * (s * s * s))); [ring|].
      f_equal.
      replace (e2 * gp_a * sin lat) with (q * k0 * S) by (rewrite Sl; unfold k0; field; lra).
      rewrite Cl. transitivity (q * k0 * (S * (c * c * c) + C * (s * s * s) - S * C * (C * C + S * S))); [ring|].
      rewrite CS1. ring. }
    rewrite EB. eapply Rle_trans; [apply Rabs_triang|]. unfold beta. rewrite Rmult_plus_distr_l.
    apply Rplus_le_compat.
    + rewrite Rabs_mult, (Rabs_right (q * k0)) by (pose proof k0_bounds; apply Rle_ge, Rmult_le_pos; lra).
      pose proof k0_bounds.
      apply Rle_trans with (q * k0 * (C * (0.39 * (E * E) + 1.03 * (E * E * E)))).
      * apply Rmult_le_compat_l; [apply Rmult_le_pos; lra|auto].
      * replace (cos lat) with (q * C) by (unfold C; field; lra).
        assert (0 <= E) by (pose proof (Rabs_pos eps); lra).
        assert (0 <= q * C * (0.39 * (E * E) + 1.03 * (E * E * E))).
        { apply Rmult_le_pos; [apply Rmult_le_pos; lra|]. assert (0 <= E * E) by (apply Rmult_le_pos; lra). assert (0 <= E * E * E) by (apply Rmult_le_pos; lra). lra. }
        set (w := q * C * (0.39 * (E * E) + 1.03 * (E * E * E))) in *.
        replace (q * k0 * (C * (0.39 * (E * E) + 1.03 * (E * E * E)))) with (k0 * w) by (unfold w; ring).
        replace (q * C * (42900 * (0.39 * (E * E) + 1.03 * (E * E * E)))) with (42900 * w) by (unfold w; ring).
        apply Rmult_le_compat_r; lra.
    + rewrite Rabs_mult, (Rabs_right (cos lat)) by lra. apply Rmult_le_compat_l; [lra|].
      rewrite Rabs_mult. pose proof k1_k0. 
      assert (Rabs (s * s * s) <= 1) by (apply Rabs_le; apply (cube_bound s c); lra).
      pose proof (Rabs_pos (k1 - k0)). pose proof (Rabs_pos (s * s * s)).
      rewrite <- (Rmult_1_r 0.00009). apply Rmult_le_compat; lra.
  - lra.
  - lra.
Qed.

(** From the direction to the returned coordinates. *)
Lemma Nr_lipschitz l l' : Rabs (Nr l' - Nr l) <= 44000 * Rabs (l' - l).
Proof.
  destruct (MVT_abs Nr (fun x => gp_a * e2 * sin x * cos x / (W2 x * sqrt (W2 x))) l l') as (c & E & _).
  - intros c _. apply is_derive_Reals. apply ProofFrames2.derive_Nr.
  - rewrite E. apply Rmult_le_compat_r; [apply Rabs_pos|].
    pose proof (W2_bounds c). pose proof (sW_bounds c).
    assert (P : 0.98 < W2 c * sqrt (W2 c)) by nra.
    assert (sc : Rabs (sin c * cos c) <= 1/2).
    { apply Rabs_le. pose proof (cs1 c). pose proof (Rle_0_sqr (cos c - sin c)). pose proof (Rle_0_sqr (cos c + sin c)).
      unfold Rsqr in *. lra. }
    set (d := W2 c * sqrt (W2 c)) in *.
    replace (gp_a * e2 * sin c * cos c / d) with ((e2 * gp_a) * (sin c * cos c) * / d) by (field; lra).
    pose proof ea_bounds. rewrite (Rabs_mult _ (/ d)), (Rabs_mult (e2 * gp_a)), (Rabs_right (e2 * gp_a)) by lra.
    rewrite (Rabs_right (/ d)) by (apply Rle_ge; left; apply Rinv_0_lt_compat; lra).
    assert (/ d <= 1.03). { apply Rmult_le_reg_r with d; [lra|]. rewrite Rinv_l by lra. lra. }
    assert (0 < / d) by (apply Rinv_0_lt_compat; lra).
    apply Rle_trans with (42900 * (1/2) * 1.03); [|lra].
    apply Rmult_le_compat; try lra; [apply Rmult_le_pos; [lra|apply Rabs_pos]|].
    apply Rmult_le_compat; try lra. apply Rabs_pos.
Qed.

Lemma Rabs_atan x : Rabs (atan x) <= Rabs x.
Proof.
  destruct (MVT_abs atan (fun x => / (1 + x * x)) 0 x) as (c & E & _).
  - intros c _. replace (/ (1 + c * c)) with (/ (1 + c^2)) by (f_equal; ring). apply derivable_pt_lim_atan.
  - rewrite atan_0, !Rminus_0_r in E. rewrite E.
    assert (1 <= 1 + c * c) by nra.
    rewrite Rabs_right by (apply Rle_ge; left; apply Rinv_0_lt_compat; lra).
    assert (/ (1 + c * c) <= 1). { rewrite <- Rinv_1. apply Rinv_le_contravar; lra. }
    pose proof (Rabs_pos x). nra.
Qed.

Lemma sq_small B b : - b <= B <= b -> 0 <= b <= 1 -> B * B <= b.
Proof. intros. nra. Qed.
Lemma sq_le A Q : 0 < A -> 0 < Q -> A * A <= Q * Q -> A <= Q.
Proof. intros. nra. Qed.

Lemma bowring_finish lat lon h r A B beta :
  - (PI/2) < lat < PI/2 -> -100000 <= h ->
  latX_of r = A * cos lat - B * sin lat -> latY_of r = A * sin lat + B * cos lat ->
  rho r = (Nr lat + h) * cos lat -> lon_of r = lon ->
  Rabs B <= cos lat * beta -> 0 <= beta <= 1 -> 6000000 < A -> 0.94 * (Nr lat + h) <= A ->
  exists lat' alt', ecef2Lla r = Ret (true, (lat', lon, alt')) /\
    - (PI/2) < lat' < PI/2 /\
    Rabs (lat' - lat) <= beta / 6000000 /\
    Rabs (alt' - h) <= 1.08 * beta.
Proof.
  intros Hl Hh EX EY Er El HB Hb HA HA'.
  assert (HC : 0 < cos lat) by (apply cos_gt_0; lra).
  pose proof (COS_bound lat) as CB. pose proof (SIN_bound lat) as SB. pose proof (cs1 lat) as CS.
  pose proof (Nr_bounds lat) as HN. unfold gp_a in HN.
  set (d := atan (B / A)).
  assert (HBA : Rabs B <= beta) by (apply Rle_trans with (1 := HB); nra).
  assert (HBb := proj1 (Rabs_le_between _ _) HBA).
  assert (LX : 0 < latX_of r).
  { rewrite EX. assert (Rabs (B * sin lat) <= cos lat * beta).
    { rewrite Rabs_mult. assert (Rabs (sin lat) <= 1) by (apply Rabs_le; lra).
      pose proof (Rabs_pos B). pose proof (Rabs_pos (sin lat)). nra. }
    apply Rabs_le_between in H. nra. }
  pose proof (atan2_pos_bound (latY_of r) (latX_of r) LX) as LB. fold (lat_of r) in LB.
  assert (P : 0 < A * A + B * B) by nra.
  pose proof (sqrt_lt_R0 _ P) as Q0. pose proof (sqrt_sqrt _ (Rlt_le _ _ P)) as QQ.
  set (Q := sqrt (A * A + B * B)) in *.
  assert (Cd : cos d = A / Q).
  { unfold d. rewrite cos_atan, hyp_atan, Rabs_right by lra. fold Q. field. lra. }
  assert (Sd : sin d = B / Q).
  { unfold d. rewrite sin_atan, hyp_atan, Rabs_right by lra. fold Q. field. lra. }
  assert (Ql : A <= Q) by (apply sq_le; try lra; pose proof (Rle_0_sqr B); unfold Rsqr in *; lra).
  assert (Qu : Q <= A + B * B) by nra.
  assert (Dsm : Rabs d <= beta / 6000000).
  { unfold d. eapply Rle_trans; [apply Rabs_atan|]. unfold Rdiv. rewrite Rabs_mult.
    rewrite (Rabs_right (/ A)) by (apply Rle_ge; left; apply Rinv_0_lt_compat; lra).
    apply Rmult_le_compat; auto; [apply Rabs_pos|left; apply Rinv_0_lt_compat; lra|].
    apply Rinv_le_contravar; lra. }
  assert (dsm := proj1 (Rabs_le_between _ _) Dsm).
  assert (P3 : 3 < PI) by (pose proof PI2_3_2; lra).
  assert (Elat : lat_of r = lat + d).
  { unfold lat_of. rewrite <- (atan2_of_polar Q (lat + d)); auto.
    - f_equal.
      + rewrite EY, sin_plus, Cd, Sd. field. lra.
      + rewrite EX, cos_plus, Cd, Sd. field. lra.
    - lra. }
  assert (Clat : cos (lat_of r) = latX_of r / Q).
  { rewrite Elat, cos_plus, Cd, Sd, EX. field. lra. }
  assert (Cp : 0 < cos (lat_of r)) by (apply cos_gt_0; lra).
  exists (lat_of r), (rho r / cos (lat_of r) - Nr (lat_of r)).
  split; [rewrite ecef2Lla_ok by lra; now rewrite El|]. split; auto. split.
  - rewrite Elat. replace (lat + d - lat) with d by ring. auto.
  - (* altitude *)
    set (t := B * sin lat / cos lat).
    assert (Ht : Rabs t <= beta).
    { unfold t, Rdiv. rewrite !Rabs_mult. rewrite (Rabs_right (/ cos lat)) by (apply Rle_ge; left; now apply Rinv_0_lt_compat).
      apply Rmult_le_reg_r with (cos lat); auto. rewrite Rmult_assoc, Rinv_l by lra.
      assert (Rabs (sin lat) <= 1) by (apply Rabs_le; lra).
      pose proof (Rabs_pos B). pose proof (Rabs_pos (sin lat)). nra. }
    assert (tb := proj1 (Rabs_le_between _ _) Ht).
    assert (Eq : rho r / cos (lat_of r) = (Nr lat + h) * (Q / (A - t))).
    { rewrite Clat, Er, EX. unfold t. field.
      assert (A * cos lat - B * sin lat <> 0) by (rewrite <- EX; lra). repeat split; lra. }
    rewrite Eq.
    replace ((Nr lat + h) * (Q / (A - t)) - Nr (lat_of r) - h)
      with ((Nr lat + h) * ((Q - A + t) / (A - t)) + - (Nr (lat_of r) - Nr lat)) by (field; lra).
    eapply Rle_trans; [apply Rabs_triang|].
    rewrite Rabs_Ropp.
    pose proof (Nr_lipschitz lat (lat_of r)) as L. rewrite Elat in L at 2.
    replace (lat + d - lat) with d in L by ring.
    assert (T1 : Rabs ((Nr lat + h) * ((Q - A + t) / (A - t))) <= 1.07 * beta).
    { unfold Rdiv. rewrite !Rabs_mult, (Rabs_right (Nr lat + h)) by lra.
      rewrite (Rabs_right (/ (A - t))) by (apply Rle_ge; left; apply Rinv_0_lt_compat; lra).
      assert (QA : 0 <= Q - A <= beta * / 1000000).
      { split; [lra|]. assert ((Q - A) * (Q + A) = B * B) by lra.
        assert ((Q - A) * 12000000 <= (Q - A) * (Q + A)) by (apply Rmult_le_compat_l; lra).
        pose proof (sq_small B beta). lra. }
      assert (Rabs (Q - A + t) <= 1.000001 * beta) by (apply Rabs_le; lra).
      assert (I : (Nr lat + h) * / (A - t) <= 1.065).
      { apply Rmult_le_reg_r with (A - t); [lra|]. rewrite Rmult_assoc, Rinv_l by lra. lra. }
      assert (0 < / (A - t)) by (apply Rinv_0_lt_compat; lra).
      assert (0 <= (Nr lat + h) * / (A - t)) by (apply Rmult_le_pos; lra).
      replace ((Nr lat + h) * (Rabs (Q - A + t) * / (A - t))) with ((Nr lat + h) * / (A - t) * Rabs (Q - A + t)) by ring.
      pose proof (Rabs_pos (Q - A + t)). 
      apply Rle_trans with (1.065 * (1.000001 * beta)); [apply Rmult_le_compat; lra|lra]. }
    lra.
Qed.

Lemma eps_bound lat h : -100000 <= h ->
  Rabs (e2 / (1 - e2) * (h / (Nr lat + h))) <= 0.00675 /\
  (h <= 100000 -> Rabs (e2 / (1 - e2) * (h / (Nr lat + h))) <= 0.000108).
Proof.
  intros Hh. pose proof (Nr_bounds lat) as HN. unfold gp_a in HN.
  assert (K : 0 < e2 / (1 - e2) < 0.00674) by (unfold e2, gp_f; split; lra).
  assert (X : -0.016 <= h / (Nr lat + h) <= 1).
  { split; apply Rmult_le_reg_r with (Nr lat + h); try lra; unfold Rdiv; rewrite Rmult_assoc, Rinv_l by lra; lra. }
  set (k := e2 / (1 - e2)) in *. split.
  - apply Rabs_le. split; nra.
  - intros H. assert (Y : h / (Nr lat + h) <= 0.016).
    { apply Rmult_le_reg_r with (Nr lat + h); try lra; unfold Rdiv; rewrite Rmult_assoc, Rinv_l by lra; lra. }
    apply Rabs_le. split; nra.
Qed.

Lemma geodetic_round_trip : forall lat lon alt r,
  - (PI/2) < lat < PI/2 -> - PI < lon <= PI -> -100000 <= alt ->
  exists p lat' alt', lla2Ecef lat lon alt r = Ret (true, p) /\
    ecef2Lla p = Ret (true, (lat', lon, alt')) /\
    - (PI/2) < lat' < PI/2 /\
    Rabs (lat' - lat) <= 0.0000002 /\ Rabs (alt' - alt) <= 1 /\
    (alt <= 100000 -> Rabs (lat' - lat) <= 0.0000000001 /\ Rabs (alt' - alt) <= 0.001).
Proof.
  intros lat lon alt r Hl Ho Ha.
  assert (I : in_range lat lon) by (split; apply Rabs_le; lra).
  exists (ecef lat lon alt).
  assert (HC : 0 < cos lat) by (apply cos_gt_0; lra).
  pose proof (Nr_bounds lat) as HN. unfold gp_a in HN.
  assert (El : lon_of (ecef lat lon alt) = lon).
  { unfold lon_of, ecef; cbn [vx vy]. apply atan2_of_polar; auto. apply Rmult_lt_0_compat; lra. }
  destruct (eps_bound lat alt Ha) as [E1 E2].
  destruct (Rle_dec alt 100000) as [Hn|Hn].
  - destruct (bowring_direction lat lon alt _ 0.00011 Hl I Ha eq_refl) as (A & B & X & Y & HB & HA & HA' & Er); try lra.
    destruct (bowring_finish lat lon alt _ A B _ Hl Ha X Y Er El HB) as (lat' & alt' & Z & L & D & D'); auto.
    { unfold beta. lra. }
    unfold beta in D, D'.
    exists lat', alt'. split; [now apply lla2Ecef_ok|]. repeat split; auto; try apply L; try lra.
  - destruct (bowring_direction lat lon alt _ 0.0068 Hl I Ha eq_refl) as (A & B & X & Y & HB & HA & HA' & Er); try lra.
    destruct (bowring_finish lat lon alt _ A B _ Hl Ha X Y Er El HB) as (lat' & alt' & Z & L & D & D'); auto.
    { unfold beta. lra. }
    unfold beta in D, D'.
    exists lat', alt'. split; [now apply lla2Ecef_ok|]. repeat split; auto; try apply L; try lra.
Qed.
