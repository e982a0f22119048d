(** Kinematics of the geodetic coordinates and injectivity of lla2Ecef. *)
From Coq Require Import Reals Lra Lia Psatz.
From Coquelicot Require Import Coquelicot.
From Verif Require Import Base BaseVec SpecRot SpecEarth ModelGravity ModelFrames ProofVec ProofTrig ProofGravity ProofFrames.
Open Scope R_scope.

(** Restate an equation of a Coquelicot structure over R as one over R. *)
Ltac eqR := match goal with |- @eq _ ?a ?b => change (@eq R a b) end.

Ltac rewD D := match type of D with is_derive ?f ?x ?l =>
  replace (Derive (fun y : R => f y) x) with l by (symmetry; exact (is_derive_unique f x l D)) end.

(** d/dlat (N cos lat) = - M sin lat, d/dlat ((1-e^2) N sin lat) = M cos lat. *)
Lemma derive_Ncos lat : is_derive (fun l => Nr l * cos l) lat (- Mr lat * sin lat).
Proof.
  pose proof (sW_pos lat) as P. pose proof (sW_sq lat) as Q. pose proof (W2_bounds lat) as B.
  unfold Nr. evar_last.
  - unfold W2. auto_derive; [|reflexivity].
    replace (1 + - (e2 * (sin lat * sin lat))) with (W2 lat) by (unfold W2; ring).
    repeat split; lra.
  - cbv beta. unfold Mr. replace (1 + - (e2 * (sin lat * sin lat))) with (W2 lat) by (unfold W2; ring).
    set (q := sqrt (W2 lat)) in *. pose proof (cs1 lat) as C.
    assert (D : q * q = 1 - e2 * (sin lat * sin lat)) by (rewrite Q; reflexivity).
    rewrite <- Q. clearbody q. set (s := sin lat) in *. set (c := cos lat) in *. clearbody s c.
    assert (c * c = 1 - s * s) by lra.
    field_simplify; [|lra|lra].
    replace (c ^ 2) with (1 - s * s) by (rewrite <- H; ring).
    replace (q ^ 2) with (1 - e2 * (s * s)) by (rewrite <- D; ring).
    field. lra.
Qed.
Lemma derive_Nsin lat : is_derive (fun l => (1 - e2) * Nr l * sin l) lat (Mr lat * cos lat).
Proof.
  pose proof (sW_pos lat) as P. pose proof (sW_sq lat) as Q. pose proof (W2_bounds lat) as B.
  unfold Nr. evar_last.
  - unfold W2. auto_derive; [|reflexivity].
    replace (1 + - (e2 * (sin lat * sin lat))) with (W2 lat) by (unfold W2; ring).
    repeat split; lra.
  - cbv beta. unfold Mr. replace (1 + - (e2 * (sin lat * sin lat))) with (W2 lat) by (unfold W2; ring).
    set (q := sqrt (W2 lat)) in *. 
    assert (D : q * q = 1 - e2 * (sin lat * sin lat)) by (rewrite Q; reflexivity).
    rewrite <- Q. clearbody q. set (s := sin lat) in *. set (c := cos lat) in *. clearbody s c.
    field_simplify; [|lra|lra].
    replace (q ^ 2) with (1 - e2 * (s * s)) by (rewrite <- D; ring).
    field. lra.
Qed.

Lemma derive_Nr lat : is_derive Nr lat (gp_a * e2 * sin lat * cos lat / (W2 lat * sqrt (W2 lat))).
Proof.
  pose proof (sW_pos lat) as P. pose proof (sW_sq lat) as Q. pose proof (W2_bounds lat) as B.
  unfold Nr. evar_last.
  - unfold W2. auto_derive; [|reflexivity].
    replace (1 + - (e2 * (sin lat * sin lat))) with (W2 lat) by (unfold W2; ring).
    repeat split; lra.
  - cbv beta. replace (1 + - (e2 * (sin lat * sin lat))) with (W2 lat) by (unfold W2; ring).
    set (q := sqrt (W2 lat)) in *. rewrite <- Q. clearbody q. field. lra.
Qed.

(** Velocity of the ECEF position along a path of geodetic coordinates. *)
Lemma path_cc (g h lat lon : R -> R) t g' h' lat' lon' :
  is_derive g t g' -> is_derive h t h' -> is_derive lat t lat' -> is_derive lon t lon' ->
  is_derive (fun t => g t * cos (lon t) + h t * cos (lat t) * cos (lon t)) t
    (g' * cos (lon t) - g t * lon' * sin (lon t) + h' * cos (lat t) * cos (lon t)
      - h t * lat' * sin (lat t) * cos (lon t) - h t * cos (lat t) * lon' * sin (lon t)).
Proof.
  intros Dg Dh D1 D2. evar_last.
  - auto_derive; [|reflexivity]. repeat split; eexists; eassumption.
  - rewD Dg; rewD Dh; rewD D1; rewD D2. eqR. ring.
Qed.
Lemma path_cs (g h lat lon : R -> R) t g' h' lat' lon' :
  is_derive g t g' -> is_derive h t h' -> is_derive lat t lat' -> is_derive lon t lon' ->
  is_derive (fun t => g t * sin (lon t) + h t * cos (lat t) * sin (lon t)) t
    (g' * sin (lon t) + g t * lon' * cos (lon t) + h' * cos (lat t) * sin (lon t)
      - h t * lat' * sin (lat t) * sin (lon t) + h t * cos (lat t) * lon' * cos (lon t)).
Proof.
  intros Dg Dh D1 D2. evar_last.
  - auto_derive; [|reflexivity]. repeat split; eexists; eassumption.
  - rewD Dg; rewD Dh; rewD D1; rewD D2. eqR. ring.
Qed.
Lemma path_s (g h lat : R -> R) t g' h' lat' :
  is_derive g t g' -> is_derive h t h' -> is_derive lat t lat' ->
  is_derive (fun t => g t + h t * sin (lat t)) t (g' + h' * sin (lat t) + h t * lat' * cos (lat t)).
Proof.
  intros Dg Dh D1. evar_last.
  - auto_derive; [|reflexivity]. repeat split; eexists; eassumption.
  - rewD Dg; rewD Dh; rewD D1. eqR. ring.
Qed.

Lemma ecef_path (lat lon h : R -> R) t lat' lon' h' :
  is_derive lat t lat' -> is_derive lon t lon' -> is_derive h t h' ->
  vec_derive (fun t => ecef (lat t) (lon t) (h t)) t
    (mvmul (mtr (ned_matrix (lat t) (lon t)))
       (V3 ((Mr (lat t) + h t) * lat') ((Nr (lat t) + h t) * cos (lat t) * lon') (- h'))).
Proof.
  intros D1 D2 D3.
  assert (C : is_derive (fun t => Nr (lat t) * cos (lat t)) t (lat' * (- Mr (lat t) * sin (lat t)))).
  { apply (is_derive_comp (fun l => Nr l * cos l) lat); auto. apply derive_Ncos. }
  assert (S : is_derive (fun t => (1 - e2) * Nr (lat t) * sin (lat t)) t (lat' * (Mr (lat t) * cos (lat t)))).
  { apply (is_derive_comp (fun l => (1 - e2) * Nr l * sin l) lat); auto. apply derive_Nsin. }
  unfold vec_derive, ecef, mvmul, mtr, ned_matrix; cbn [vx vy vz m11 m12 m13 m21 m22 m23 m31 m32 m33 row1 row2 row3 dot].
  split; [|split].
  - eapply is_derive_ext; [|evar_last; [exact (path_cc _ _ _ _ _ _ _ _ _ C D3 D1 D2)|]].
    + intros; cbv beta; eqR; ring.
    + cbv beta; eqR; ring.
  - eapply is_derive_ext; [|evar_last; [exact (path_cs _ _ _ _ _ _ _ _ _ C D3 D1 D2)|]].
    + intros; cbv beta; eqR; ring.
    + cbv beta; eqR; ring.
  - eapply is_derive_ext; [|evar_last; [exact (path_s _ _ _ _ _ _ _ S D3 D1)|]].
    + intros; cbv beta; eqR; ring.
    + cbv beta; eqR; ring.
Qed.

Lemma is_derive_continuous (f : R -> R) x l : is_derive f x l -> continuous f x.
Proof. intros H. apply (ex_derive_continuous f). eexists; eauto. Qed.

Lemma abs_lt_locally (f : R -> R) t l b : is_derive f t l -> Rabs (f t) < b ->
  locally t (fun u => Rabs (f u) < b).
Proof.
  intros D H. apply is_derive_continuous in D.
  assert (C : continuous (fun u => Rabs (f u)) t) by (apply (continuous_comp f Rabs); auto; apply continuous_Rabs).
  apply (C (fun y => y < b)). apply (locally_open (fun y => y < b)); [apply open_lt|auto|auto].
Qed.

Lemma inside_locally (lat lon : R -> R) t lat' lon' :
  is_derive lat t lat' -> is_derive lon t lon' -> inside (lat t) (lon t) ->
  locally t (fun u => in_range (lat u) (lon u)).
Proof.
  intros D1 D2 [H1 H2].
  pose proof (abs_lt_locally _ _ _ _ D1 H1). pose proof (abs_lt_locally _ _ _ _ D2 H2).
  generalize (filter_and _ _ H H0). apply filter_imp. intros u [A B]; split; lra.
Qed.

Lemma vec_derive_ext_loc c c' t d : locally t (fun u => c u = c' u) ->
  vec_derive c t d -> vec_derive c' t d.
Proof.
  intros L (A & B & C). split; [|split].
  - apply (is_derive_ext_loc (fun u => vx (c u))); auto. generalize L. apply filter_imp. now intros u ->.
  - apply (is_derive_ext_loc (fun u => vy (c u))); auto. generalize L. apply filter_imp. now intros u ->.
  - apply (is_derive_ext_loc (fun u => vz (c u))); auto. generalize L. apply filter_imp. now intros u ->.
Qed.

Lemma vec_derive_unique c t d d' : vec_derive c t d -> vec_derive c t d' -> d = d'.
Proof.
  intros (A & B & C) (A' & B' & C'). apply v3_ext.
  - now rewrite <- (is_derive_unique _ _ _ A), <- (is_derive_unique _ _ _ A').
  - now rewrite <- (is_derive_unique _ _ _ B), <- (is_derive_unique _ _ _ B').
  - now rewrite <- (is_derive_unique _ _ _ C), <- (is_derive_unique _ _ _ C').
Qed.

Lemma lla2Ecef_path (lat lon h : R -> R) t lat' lon' h' r :
  is_derive lat t lat' -> is_derive lon t lon' -> is_derive h t h' -> inside (lat t) (lon t) ->
  vec_derive (fun t => vec_of (lla2Ecef (lat t) (lon t) (h t) r)) t
    (mvmul (mtr (ned_matrix (lat t) (lon t)))
       (V3 ((Mr (lat t) + h t) * lat') ((Nr (lat t) + h t) * cos (lat t) * lon') (- h'))).
Proof.
  intros D1 D2 D3 I. apply vec_derive_ext_loc with (fun t => ecef (lat t) (lon t) (h t)).
  - generalize (inside_locally _ _ _ _ _ D1 D2 I). apply filter_imp. intros u H.
    now rewrite lla2Ecef_ok.
  - now apply ecef_path.
Qed.

(** The rows of RE2N are the normalised partial derivatives of lla2Ecef. *)
Lemma Mr_bounds lat : 6300000 < Mr lat < 6500000.
Proof.
  pose proof (W2_bounds lat) as B. pose proof (sW_bounds lat) as S. pose proof e2_bounds as E.
  assert (P : 0.98 < W2 lat * sqrt (W2 lat) <= 1) by nra.
  set (d := W2 lat * sqrt (W2 lat)) in *. unfold Mr. fold d. clearbody d. unfold gp_a.
  split.
  - apply Rmult_lt_reg_r with d; [lra|]. unfold Rdiv. rewrite Rmult_assoc, Rinv_l by lra. nra.
  - apply Rmult_lt_reg_r with d; [lra|]. unfold Rdiv. rewrite Rmult_assoc, Rinv_l by lra. nra.
Qed.

Lemma is_derive_idR (x : R) : is_derive (fun t : R => t) x 1.
Proof. apply (is_derive_id x). Qed.
Lemma is_derive_constR (c x : R) : is_derive (fun _ : R => c) x 0.
Proof. apply (is_derive_const c x). Qed.

Lemma ned_rows_are_directions : forall lat lon alt M r, inside lat lon -> -6300000 < alt ->
  exists RE2N kN kE, computeREcef2Ned lat lon M = (true, RE2N) /\ 0 < kN /\ 0 < kE /\
    vec_derive (fun l => vec_of (lla2Ecef l lon alt r)) lat (vscale kN (row1 RE2N)) /\
    vec_derive (fun l => vec_of (lla2Ecef lat l alt r)) lon (vscale kE (row2 RE2N)) /\
    vec_derive (fun h => vec_of (lla2Ecef lat lon h r)) alt (vneg (row3 RE2N)).
Proof.
  intros lat lon alt M r I Ha. exists (ned_matrix lat lon), (Mr lat + alt), ((Nr lat + alt) * cos lat).
  pose proof (Mr_bounds lat). pose proof (Nr_bounds lat) as BN. unfold gp_a in BN.
  pose proof (inside_cos _ _ I) as C.
  split; [apply RE2N_ok; now apply inside_in_range|].
  split; [lra|]. split; [apply Rmult_lt_0_compat; lra|].
  split; [|split].
  - generalize (lla2Ecef_path (fun l => l) (fun _ => lon) (fun _ => alt) lat 1 0 0 r
      (is_derive_idR lat) (is_derive_constR lon lat) (is_derive_constR alt lat) I).
    cbv beta. intros D. 
    match type of D with vec_derive _ _ ?d => replace (vscale (Mr lat + alt) (row1 (ned_matrix lat lon))) with d; [exact D|] end.
    unfold ned_matrix, mtr, mvmul, row1, vscale; cbn. apply v3_eq; ring.
  - generalize (lla2Ecef_path (fun _ => lat) (fun l => l) (fun _ => alt) lon 0 1 0 r
      (is_derive_constR lat lon) (is_derive_idR lon) (is_derive_constR alt lon) I).
    cbv beta. intros D. 
    match type of D with vec_derive _ _ ?d => replace (vscale ((Nr lat + alt) * cos lat) (row2 (ned_matrix lat lon))) with d; [exact D|] end.
    unfold ned_matrix, mtr, mvmul, row2, vscale; cbn. apply v3_eq; ring.
  - generalize (lla2Ecef_path (fun _ => lat) (fun _ => lon) (fun h => h) alt 0 0 1 r
      (is_derive_constR lat alt) (is_derive_constR lon alt) (is_derive_idR alt) I).
    cbv beta. intros D. 
    match type of D with vec_derive _ _ ?d => replace (vneg (row3 (ned_matrix lat lon))) with d; [exact D|] end.
    unfold ned_matrix, mtr, mvmul, row3, vneg, vscale; cbn. apply v3_eq; ring.
Qed.

Lemma ned_rotations : forall lat lon M M', in_range lat lon ->
  exists A B, computeREcef2Ned lat lon M = (true, A) /\ computeRNed2Ecef lat lon M' = (true, B) /\
    is_rotation A /\ is_rotation B /\ B = mtr A /\ mmul A B = m3id /\ mmul B A = m3id.
Proof.
  intros lat lon M M' H. exists (ned_matrix lat lon), (mtr (ned_matrix lat lon)).
  pose proof (ned_rotation lat lon) as R. pose proof (rotation_matrix _ R) as (H1 & H2 & _).
  repeat split; auto using RE2N_ok, RN2E_ok; try apply R; try apply rotation_mtr; auto.
Qed.

(** ** Injectivity *)
Lemma supp_ineq s1 c1 s2 c2 k : 0 <= k < 1 -> s1 * s1 + c1 * c1 = 1 -> s2 * s2 + c2 * c2 = 1 ->
  let q1 := sqrt (1 - k * (s1 * s1)) in let q2 := sqrt (1 - k * (s2 * s2)) in
  (1 - k) * (1 - (c1 * c2 + s1 * s2)) * q2 <= q1 * q2 - (c1 * c2 + (1 - k) * (s1 * s2)).
Proof.
  intros Hk H1 H2 q1 q2.
  assert (P1 : 0 < 1 - k * (s1 * s1)) by nra. assert (P2 : 0 < 1 - k * (s2 * s2)) by nra.
  pose proof (sqrt_sqrt _ (Rlt_le _ _ P1)) as Q1. pose proof (sqrt_sqrt _ (Rlt_le _ _ P2)) as Q2.
  pose proof (sqrt_lt_R0 _ P1) as R1. pose proof (sqrt_lt_R0 _ P2) as R2. fold q1 in Q1, R1. fold q2 in Q2, R2.
  clearbody q1 q2.
  set (c := c1 * c2 + s1 * s2). set (Q := c1 * c2 + (1 - k) * (s1 * s2)).
  assert (L : (q1 * q2 - Q) * (q1 * q2 + Q) = (1 - k) * ((1 - c) * (1 + c))).
  { transitivity ((q1 * q1) * (q2 * q2) - Q * Q); [ring|]. rewrite Q1, Q2. unfold Q, c.
    assert (E1 : c1 * c1 = 1 - s1 * s1) by lra. assert (E2 : c2 * c2 = 1 - s2 * s2) by lra.
    ring [E1 E2]. }
  assert (C1 : c <= 1).
  { pose proof (Rle_0_sqr (c1 - c2)). pose proof (Rle_0_sqr (s1 - s2)). unfold c, Rsqr in *. lra. }
  assert (C2 : -1 <= c).
  { pose proof (Rle_0_sqr (c1 + c2)). pose proof (Rle_0_sqr (s1 + s2)). unfold c, Rsqr in *. lra. }
  assert (q2le : q2 <= 1).
  { assert (0 <= k * (s2 * s2)) by (apply Rmult_le_pos; nra). nra. }
  assert (G1 : 0 < 1 + k * (s1 * s2)).
  { assert (-1 <= s1 * s2 <= 1) by nra. nra. }
  assert (G : q1 * q2 <= 1 + k * (s1 * s2)).
  { assert ((q1 * q2) * (q1 * q2) <= (1 + k * (s1 * s2)) * (1 + k * (s1 * s2))).
    { replace ((q1 * q2) * (q1 * q2)) with ((q1 * q1) * (q2 * q2)) by ring. rewrite Q1, Q2.
      assert (0 <= k * ((s1 + s2) * (s1 + s2))) by (apply Rmult_le_pos; [lra|apply Rle_0_sqr]). nra. }
    assert (0 < q1 * q2) by (apply Rmult_lt_0_compat; auto). nra. }
  assert (G' : q1 * q2 + Q <= 1 + c) by (unfold Q, c; lra).
  assert (q1 * q2 >= Q /\ q1 * q2 >= - Q).
  { assert (0 <= (q1 * q2 - Q) * (q1 * q2 + Q)).
    { rewrite L. apply Rmult_le_pos; [lra|]. apply Rmult_le_pos; lra. }
    assert (0 < q1 * q2) by (apply Rmult_lt_0_compat; auto). split; nra. }
  destruct H as [Ha Hb].
  (* (1-k)(1-c) q2 (q1q2+Q) <= (1-k)(1-c)(1+c) = (q1q2-Q)(q1q2+Q) *)
  destruct (Req_dec (q1 * q2 + Q) 0) as [Z|Z].
  - assert (Zq : (1 - c) * (1 + c) = 0) by (apply Rmult_eq_reg_l with (1 - k); [|lra]; rewrite <- L, Z; ring).
    assert (0 < q1 * q2) by (apply Rmult_lt_0_compat; auto).
    apply Rmult_integral in Zq. destruct Zq as [Zq|Zq].
    + replace (1 - c) with 0 by lra. lra.
    + (* c = -1: directions opposite, q1 = q2 *)
      assert (c1 = - c2 /\ s1 = - s2).
      { assert (T : (c1 + c2) * (c1 + c2) + (s1 + s2) * (s1 + s2) = 0) by (unfold c in Zq; lra).
        pose proof (Rle_0_sqr (c1 + c2)) as Y1. pose proof (Rle_0_sqr (s1 + s2)) as Y2. unfold Rsqr in *.
        assert (Z1 : (c1 + c2) * (c1 + c2) = 0) by lra. assert (Z2 : (s1 + s2) * (s1 + s2) = 0) by lra.
        apply Rmult_integral in Z1, Z2. destruct Z1, Z2; split; lra. }
      destruct H0 as [-> ->].
      assert (q1 = q2).
      { assert (q1 * q1 = q2 * q2) by (rewrite Q1, Q2; ring). nra. }
      subst q1. 
      assert (Q = - (q2 * q2)) by lra. rewrite H0.
      assert (q2 * q2 >= 1 - k) by nra.
      assert ((1 - k) * (1 - c) * q2 <= (1 - k) * (1 - c)).
      { rewrite <- (Rmult_1_r ((1 - k) * (1 - c))) at 2. apply Rmult_le_compat_l; [|lra].
        apply Rmult_le_pos; lra. }
      assert (c = -1) by lra. rewrite H5 in *. lra.
  - assert (Pz : 0 < q1 * q2 + Q) by lra.
    apply Rmult_le_reg_r with (q1 * q2 + Q); auto. rewrite L.
    assert (q2 * (q1 * q2 + Q) <= 1 + c).
    { apply Rle_trans with (1 * (q1 * q2 + Q)); [apply Rmult_le_compat_r; lra|lra]. }
    assert (0 <= (1 - k) * (1 - c)) by (apply Rmult_le_pos; lra).
    replace ((1 - k) * (1 - c) * q2 * (q1 * q2 + Q)) with ((1 - k) * (1 - c) * (q2 * (q1 * q2 + Q))) by ring.
    replace ((1 - k) * ((1 - c) * (1 + c))) with ((1 - k) * (1 - c) * (1 + c)) by ring.
    now apply Rmult_le_compat_l.
Qed.

(** Two points of the meridian plane with the same (p, z). *)
Lemma meridian_injective l1 h1 l2 h2 :
  - (PI/2) < l1 < PI/2 -> - (PI/2) < l2 < PI/2 ->
  - (gp_a * (1 - e2)) < h1 -> - (gp_a * (1 - e2)) < h2 ->
  (Nr l1 + h1) * cos l1 = (Nr l2 + h2) * cos l2 ->
  ((1 - e2) * Nr l1 + h1) * sin l1 = ((1 - e2) * Nr l2 + h2) * sin l2 ->
  l1 = l2 /\ h1 = h2.
Proof.
  intros B1 B2 H1 H2 Ep Ez.
  pose proof e2_bounds as Be.
  pose proof (cs1 l1) as C1. pose proof (cs1 l2) as C2.
  pose proof (sW_pos l1) as P1. pose proof (sW_pos l2) as P2.
  pose proof (sW_sq l1) as S1. pose proof (sW_sq l2) as S2.
  set (m := gp_a * (1 - e2)) in *.
  assert (Sup : forall a b, 
     let qa := sqrt (W2 a) in let qb := sqrt (W2 b) in
     (1 - e2) * (1 - (cos a * cos b + sin a * sin b)) * qb
       <= qa * qb - (cos a * cos b + (1 - e2) * (sin a * sin b))).
  { intros a b. cbv zeta. unfold W2. apply supp_ineq; [lra| |]; pose proof (cs1 a); pose proof (cs1 b); lra. }
  pose proof (Sup l1 l2) as I12. pose proof (Sup l2 l1) as I21. cbv zeta in I12, I21. clear Sup.
  set (q1 := sqrt (W2 l1)) in *. set (q2 := sqrt (W2 l2)) in *.
  set (c := cos l1 * cos l2 + sin l1 * sin l2) in *.
  assert (Ec : cos l2 * cos l1 + sin l2 * sin l1 = c) by (unfold c; ring). rewrite Ec in I21.
  (* dot products of the common point with the two normals *)
  assert (Ap : 0 < gp_a) by (unfold gp_a; lra).
  assert (N1 : Nr l1 * q1 = gp_a) by (unfold Nr; fold q1; field; lra).
  assert (N2 : Nr l2 * q2 = gp_a) by (unfold Nr; fold q2; field; lra).
  assert (D1 : (Nr l1 + h1) * cos l1 * cos l1 + ((1 - e2) * Nr l1 + h1) * sin l1 * sin l1 = gp_a * q1 + h1).
  { replace (gp_a * q1) with (Nr l1 * (q1 * q1)) by (rewrite <- N1; ring). rewrite S1. unfold W2.
    assert (X : cos l1 * cos l1 = 1 - sin l1 * sin l1) by lra. ring [X]. }
  assert (D2 : (Nr l2 + h2) * cos l2 * cos l2 + ((1 - e2) * Nr l2 + h2) * sin l2 * sin l2 = gp_a * q2 + h2).
  { replace (gp_a * q2) with (Nr l2 * (q2 * q2)) by (rewrite <- N2; ring). rewrite S2. unfold W2.
    assert (X : cos l2 * cos l2 = 1 - sin l2 * sin l2) by lra. ring [X]. }
  (* C2 . n1 <= tau1 *)
  assert (T12 : Nr l2 * (cos l1 * cos l2 + (1 - e2) * (sin l1 * sin l2)) <= gp_a * q1 - m * (1 - c)).
  { apply Rmult_le_reg_r with q2; auto.
    replace (Nr l2 * (cos l1 * cos l2 + (1 - e2) * (sin l1 * sin l2)) * q2)
      with (gp_a * (cos l1 * cos l2 + (1 - e2) * (sin l1 * sin l2))) by (rewrite <- N2; ring).
    unfold m. assert (gp_a * ((1 - e2) * (1 - c) * q2) <= gp_a * (q1 * q2 - (cos l1 * cos l2 + (1 - e2) * (sin l1 * sin l2))))
      by (apply Rmult_le_compat_l; lra). nra. }
  assert (T21 : Nr l1 * (cos l2 * cos l1 + (1 - e2) * (sin l2 * sin l1)) <= gp_a * q2 - m * (1 - c)).
  { apply Rmult_le_reg_r with q1; auto.
    replace (Nr l1 * (cos l2 * cos l1 + (1 - e2) * (sin l2 * sin l1)) * q1)
      with (gp_a * (cos l2 * cos l1 + (1 - e2) * (sin l2 * sin l1))) by (rewrite <- N1; ring).
    unfold m. assert (gp_a * ((1 - e2) * (1 - c) * q1) <= gp_a * (q2 * q1 - (cos l2 * cos l1 + (1 - e2) * (sin l2 * sin l1))))
      by (apply Rmult_le_compat_l; lra). nra. }
  assert (F1 : gp_a * q1 + h1 = Nr l2 * (cos l1 * cos l2 + (1 - e2) * (sin l1 * sin l2)) + h2 * c).
  { rewrite <- D1, Ep, Ez. unfold c. ring. }
  assert (F2 : gp_a * q2 + h2 = Nr l1 * (cos l2 * cos l1 + (1 - e2) * (sin l2 * sin l1)) + h1 * c).
  { rewrite <- D2, <- Ep, <- Ez. unfold c. ring. }
  assert (K1 : h1 + m <= (h2 + m) * c) by lra.
  assert (K2 : h2 + m <= (h1 + m) * c) by lra.
  assert (c <= 1).
  { pose proof (Rle_0_sqr (cos l1 - cos l2)) as Y1. pose proof (Rle_0_sqr (sin l1 - sin l2)) as Y2.
    unfold c, Rsqr in *. lra. }
  assert (c0 : 0 < c) by nra.
  assert (c = 1).
  { apply Rle_antisym; auto. apply Rnot_lt_le. intros L.
    assert ((h2 + m) * c < h2 + m) by nra. assert ((h1 + m) * c < h1 + m) by nra. lra. }
  assert (cos l1 = cos l2 /\ sin l1 = sin l2).
  { assert ((cos l1 - cos l2) * (cos l1 - cos l2) + (sin l1 - sin l2) * (sin l1 - sin l2) = 0)
      by (unfold c in H0; lra).
    pose proof (Rle_0_sqr (cos l1 - cos l2)) as Y1. pose proof (Rle_0_sqr (sin l1 - sin l2)) as Y2. unfold Rsqr in *.
    assert (Z1 : (cos l1 - cos l2) * (cos l1 - cos l2) = 0) by lra.
    assert (Z2 : (sin l1 - sin l2) * (sin l1 - sin l2) = 0) by lra.
    apply Rmult_integral in Z1, Z2. destruct Z1, Z2; split; lra. }
  assert (l1 = l2).
  { destruct H3. pose proof PI_RGT_0. apply angle_unique; auto; lra. }
  split; auto. rewrite H0 in K1, K2. lra.
Qed.

Lemma lla2Ecef_injective : forall lat1 lon1 h1 lat2 lon2 h2 r r',
  - (PI/2) < lat1 < PI/2 -> - (PI/2) < lat2 < PI/2 -> - PI < lon1 <= PI -> - PI < lon2 <= PI ->
  - (earth_a * (1 - earth_f)^2) < h1 -> - (earth_a * (1 - earth_f)^2) < h2 ->
  lla2Ecef lat1 lon1 h1 r = lla2Ecef lat2 lon2 h2 r' ->
  lat1 = lat2 /\ lon1 = lon2 /\ h1 = h2.
Proof.
  intros lat1 lon1 h1 lat2 lon2 h2 r r' A1 A2 O1 O2 H1 H2 E.
  assert (I1 : in_range lat1 lon1) by (split; apply Rabs_le; lra).
  assert (I2 : in_range lat2 lon2) by (split; apply Rabs_le; lra).
  rewrite !lla2Ecef_ok in E by auto. unfold ecef in E. injection E as Ex Ey Ez.
  assert (Em : earth_a * (1 - earth_f)^2 = gp_a * (1 - e2)).
  { unfold e2. change gp_f with earth_f. change gp_a with earth_a. ring. }
  rewrite Em in *.
  assert (C1 : 0 < cos lat1) by (apply cos_gt_0; lra).
  assert (C2 : 0 < cos lat2) by (apply cos_gt_0; lra).
  pose proof (Nr_bounds lat1) as N1. pose proof (Nr_bounds lat2) as N2. pose proof e2_bounds.
  assert (Ap : 0 < gp_a) by (unfold gp_a; lra).
  assert (Pe : 0 < gp_a * e2) by (apply Rmult_lt_0_compat; lra).
  assert (P1 : 0 < (Nr lat1 + h1) * cos lat1) by (apply Rmult_lt_0_compat; lra).
  assert (P2 : 0 < (Nr lat2 + h2) * cos lat2) by (apply Rmult_lt_0_compat; lra).
  assert (L : lon1 = lon2).
  { rewrite <- (atan2_of_polar _ lon1 P1 O1), <- (atan2_of_polar _ lon2 P2 O2).
    now rewrite Ex, Ey. }
  subst lon2. 
  assert (Ep : (Nr lat1 + h1) * cos lat1 = (Nr lat2 + h2) * cos lat2).
  { pose proof (cs1 lon1).
    assert (forall p q, p * cos lon1 = q * cos lon1 -> p * sin lon1 = q * sin lon1 -> p = q).
    { intros p q X Y. transitivity (p * (cos lon1 * cos lon1 + sin lon1 * sin lon1)); [rewrite H0; ring|].
      transitivity (q * (cos lon1 * cos lon1 + sin lon1 * sin lon1)); [|rewrite H0; ring].
      transitivity ((p * cos lon1) * cos lon1 + (p * sin lon1) * sin lon1); [ring|]. rewrite X, Y. ring. }
    apply H3; auto. }
  destruct (meridian_injective lat1 h1 lat2 h2) as [-> ->]; auto.
Qed.
