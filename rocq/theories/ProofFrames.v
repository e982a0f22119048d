(** Lemmas about the ECEF / NED / geodetic conversions. *)
From Coq Require Import Reals Lra Lia Psatz.
From Coquelicot Require Import Coquelicot.
From Verif Require Import Base BaseVec SpecRot SpecEarth ModelGravity ModelFrames ProofVec ProofTrig ProofGravity.
Open Scope R_scope.

(** ** Guards *)
Lemma guard_ok lat lon (A : Type) (x y z : A) : in_range lat lon ->
  (if Rlt_dec (PI / 2) (Rabs lat) then x else if Rlt_dec PI (Rabs lon) then y else z) = z.
Proof. intros [H1 H2]. destruct (Rlt_dec (PI/2) (Rabs lat)), (Rlt_dec PI (Rabs lon)); auto; lra. Qed.
Lemma guard_bad lat lon (A : Type) (x z : A) : ~ in_range lat lon ->
  (if Rlt_dec (PI / 2) (Rabs lat) then x else if Rlt_dec PI (Rabs lon) then x else z) = x.
Proof.
  intros H. destruct (Rlt_dec (PI/2) (Rabs lat)), (Rlt_dec PI (Rabs lon)); auto.
  exfalso. apply H. split; lra.
Qed.
Lemma in_range_dec lat lon : {in_range lat lon} + {~ in_range lat lon}.
Proof.
  unfold in_range. destruct (Rle_dec (Rabs lat) (PI/2)), (Rle_dec (Rabs lon) PI); auto;
  right; intros [? ?]; lra.
Qed.
Lemma inside_in_range lat lon : inside lat lon -> in_range lat lon.
Proof. intros [? ?]; split; lra. Qed.
Lemma in_range_cos lat lon : in_range lat lon -> 0 <= cos lat.
Proof. intros [H _]. apply Rabs_le_between in H. apply cos_ge_0; lra. Qed.
Lemma inside_cos lat lon : inside lat lon -> 0 < cos lat.
Proof. intros [H _]. apply Rabs_def2 in H. apply cos_gt_0; lra. Qed.

Definition ned_matrix (lat lon : R) : mat3 :=
  M3 (- sin lat * cos lon) (- sin lat * sin lon) (cos lat)
     (- sin lon) (cos lon) 0
     (- cos lat * cos lon) (- cos lat * sin lon) (- sin lat).

Lemma RE2N_ok lat lon M : in_range lat lon -> computeREcef2Ned lat lon M = (true, ned_matrix lat lon).
Proof. intros. unfold computeREcef2Ned. now rewrite guard_ok. Qed.
Lemma RN2E_ok lat lon M : in_range lat lon -> computeRNed2Ecef lat lon M = (true, mtr (ned_matrix lat lon)).
Proof. intros. unfold computeRNed2Ecef. now rewrite guard_ok. Qed.

Lemma ned_rotation lat lon : is_rotation (ned_matrix lat lon).
Proof.
  pose proof (cs1 lat) as A. pose proof (cs1 lon) as B. unfold ned_matrix.
  set (s := sin lat) in *. set (c := cos lat) in *. set (u := sin lon) in *. set (v := cos lon) in *.
  clearbody s c u v.
  assert (E1 : c * c = 1 - s * s) by lra. assert (E2 : v * v = 1 - u * u) by lra.
  apply rotation_of_matrix.
  - unvec. apply m3_eq; ring [E1 E2].
  - unvec. ring [E1 E2].
Qed.

Lemma ned_guard_iff lat lon M : fst (computeREcef2Ned lat lon M) = true <-> in_range lat lon.
Proof.
  destruct (in_range_dec lat lon) as [H|H].
  - rewrite RE2N_ok by auto. cbn. tauto.
  - unfold computeREcef2Ned. rewrite guard_bad by auto. cbn. split; [discriminate|tauto].
Qed.


(** ** lla2Ecef *)
Definition e2 : R := 1 - (1 - gp_f) * (1 - gp_f).
Definition W2 (lat : R) : R := 1 - e2 * (sin lat * sin lat).
Definition Nr (lat : R) : R := gp_a / sqrt (W2 lat).
Definition Mr (lat : R) : R := gp_a * (1 - e2) / (W2 lat * sqrt (W2 lat)).

Lemma e2_bounds : 0.0066 < e2 < 0.0067.
Proof. unfold e2, gp_f. lra. Qed.
Lemma W2_bounds lat : 0.99 < W2 lat <= 1.
Proof. unfold W2. pose proof e2_bounds. pose proof (t_range lat). nra. Qed.
Lemma sW_pos lat : 0 < sqrt (W2 lat).
Proof. apply sqrt_lt_R0. pose proof (W2_bounds lat). lra. Qed.
Lemma sW_sq lat : sqrt (W2 lat) * sqrt (W2 lat) = W2 lat.
Proof. apply sqrt_sqrt. pose proof (W2_bounds lat). lra. Qed.
Lemma sW_bounds lat : 0.99 < sqrt (W2 lat) <= 1.
Proof. pose proof (W2_bounds lat). pose proof (sW_pos lat). pose proof (sW_sq lat). nra. Qed.
Lemma Nr_bounds lat : gp_a <= Nr lat < 6450000.
Proof.
  pose proof (sW_bounds lat). unfold Nr, gp_a. split.
  - apply Rmult_le_reg_r with (sqrt (W2 lat)); [lra|]. unfold Rdiv. rewrite Rmult_assoc, Rinv_l by lra. nra.
  - apply Rmult_lt_reg_r with (sqrt (W2 lat)); [lra|]. unfold Rdiv. rewrite Rmult_assoc, Rinv_l by lra. nra.
Qed.

Definition ecef (lat lon alt : R) : vec3 :=
  V3 ((Nr lat + alt) * cos lat * cos lon)
     ((Nr lat + alt) * cos lat * sin lon)
     (((1 - e2) * Nr lat + alt) * sin lat).

Lemma e_sqrt : sqrt e2 * sqrt e2 = e2.
Proof. apply sqrt_sqrt. pose proof e2_bounds; lra. Qed.

Lemma lla2Ecef_ok lat lon alt r : in_range lat lon -> lla2Ecef lat lon alt r = Ret (true, ecef lat lon alt).
Proof.
  intros H. unfold lla2Ecef. rewrite guard_ok by auto. fold e2. cbv zeta.
  rewrite sqrtc_ok by (pose proof e2_bounds; lra). cbn [bind]. rewrite e_sqrt. fold (W2 lat).
  rewrite sqrtc_ok by (pose proof (W2_bounds lat); lra). cbn [bind].
  rewrite Rdivc_ok by (pose proof (sW_pos lat); lra). cbn [bind]. reflexivity.
Qed.

Lemma frame_guards : forall lat lon alt M r,
  (in_range lat lon ->
     fst (computeREcef2Ned lat lon M) = true /\ fst (computeRNed2Ecef lat lon M) = true /\
     exists p, lla2Ecef lat lon alt r = Ret (true, p)) /\
  (~ in_range lat lon ->
     computeREcef2Ned lat lon M = (false, M) /\ computeRNed2Ecef lat lon M = (false, M) /\
     lla2Ecef lat lon alt r = Ret (false, r)).
Proof.
  intros. split; intros H.
  - rewrite RE2N_ok, RN2E_ok, lla2Ecef_ok by auto. eauto.
  - unfold computeREcef2Ned, computeRNed2Ecef, lla2Ecef. now rewrite !guard_bad by auto.
Qed.

(** On the ellipsoid, along its normal. *)
Lemma earth_constants : gp_a = earth_a /\ gp_f = earth_f.
Proof. split; reflexivity. Qed.
Lemma earth_b_sq : earth_b * earth_b = earth_a * earth_a * (1 - e2).
Proof. unfold earth_b, e2. change gp_f with earth_f. ring. Qed.

Lemma lla2Ecef_ellipsoid : forall lat lon alt r, in_range lat lon ->
  exists s k p, lla2Ecef lat lon alt r = Ret (true, p) /\
    on_ellipsoid earth_a earth_b s /\ 0 < k /\
    ellipsoid_grad earth_a earth_b s = vscale k (direction lat lon) /\
    p = vadd s (vscale alt (direction lat lon)).
Proof.
  intros lat lon alt r H. exists (ecef lat lon 0), (/ (earth_a * sqrt (W2 lat))), (ecef lat lon alt).
  pose proof (sW_pos lat) as P. pose proof (sW_sq lat) as Q. pose proof e2_bounds as B.
  assert (A0 : 0 < earth_a) by (unfold earth_a; lra).
  assert (B0 : earth_b <> 0) by (unfold earth_b, earth_a, earth_f; lra).
  pose proof (cs1 lat) as C1. pose proof (cs1 lon) as C2.
  split; [now apply lla2Ecef_ok|]. split; [|split; [|split]].
  - unfold on_ellipsoid, ecef, vx, vy, vz. rewrite !Rplus_0_r. unfold Nr. change gp_a with earth_a.
    replace ((earth_a / sqrt (W2 lat) * cos lat * cos lon / earth_a) ^ 2)
      with (cos lat * cos lat * (cos lon * cos lon) / (sqrt (W2 lat) * sqrt (W2 lat))) by (field; lra).
    replace ((earth_a / sqrt (W2 lat) * cos lat * sin lon / earth_a) ^ 2)
      with (cos lat * cos lat * (sin lon * sin lon) / (sqrt (W2 lat) * sqrt (W2 lat))) by (field; lra).
    replace (((1 - e2) * (earth_a / sqrt (W2 lat)) * sin lat / earth_b) ^ 2)
      with ((1 - e2) * (1 - e2) * earth_a * earth_a * (sin lat * sin lat) / (earth_b * earth_b) / (sqrt (W2 lat) * sqrt (W2 lat)))
      by (field; split; lra).
    rewrite earth_b_sq, Q.
    assert (D : cos lat * cos lat + (1 - e2) * (sin lat * sin lat) = W2 lat) by (unfold W2; lra).
    replace (cos lat * cos lat * (cos lon * cos lon) / W2 lat + cos lat * cos lat * (sin lon * sin lon) / W2 lat
      + (1 - e2) * (1 - e2) * earth_a * earth_a * (sin lat * sin lat) / (earth_a * earth_a * (1 - e2)) / W2 lat)
      with ((cos lat * cos lat * (cos lon * cos lon + sin lon * sin lon) + (1 - e2) * (sin lat * sin lat)) / W2 lat)
      by (field; pose proof (W2_bounds lat); lra).
    rewrite C2, Rmult_1_r, D. field. pose proof (W2_bounds lat); lra.
  - apply Rinv_0_lt_compat. apply Rmult_lt_0_compat; auto.
  - unfold ellipsoid_grad, ecef, direction, vscale, vx, vy, vz. rewrite !Rplus_0_r.
    replace (earth_b ^ 2) with (earth_a * earth_a * (1 - e2)) by (rewrite <- earth_b_sq; ring).
    unfold Nr. change gp_a with earth_a. apply v3_eq; field; lra.
  - unfold ecef, direction, vadd, vscale, vx, vy, vz. apply v3_eq; ring.
Qed.
