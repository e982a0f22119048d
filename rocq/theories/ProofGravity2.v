(** Lemmas about the gravity model, continued: the gradient of the field. *)
From Coq Require Import Reals Lra Psatz.
From Coquelicot Require Import Coquelicot.
From Verif Require Import Base BaseVec SpecEarth SpecPva ModelGravity ProofVec ProofGravity.
Open Scope R_scope.

Lemma is_derive_eq (f g : R -> R) (x d d' : R) : (forall y, f y = g y) -> d = d' -> is_derive g x d' -> is_derive f x d.
Proof. intros H -> D. apply is_derive_ext with g; auto. Qed.

Definition g_ell' (t : R) : R :=
  ((gp_b * gp_gPole - gp_a * gp_gEq) * g_den t - g_num t * (gp_b * gp_b - gp_a * gp_a) / 2) / (g_den t * sqrt (g_den t)).

Lemma down_derive_h lat : is_derive (fun h => down (gravityNed lat h)) 0
  (- (g_ell (sin lat * sin lat) * ((2/gp_a)*(1+gp_f+g_m-(2*gp_f*(sin lat * sin lat)))))).
Proof.
  eapply is_derive_eq; [intros; unfold down; rewrite gravityNed_ok; reflexivity| |].
  2: { cbn [vec_of vz]. unfold g_alt. auto_derive; [|reflexivity]. auto. }
  unfold gp_a. field.
Qed.

Lemma north_derive_h lat : is_derive (fun h => north (gravityNed lat h)) 0
  (- (808/100) * (1/1000000) * (1/1000) * sin (2 * lat)).
Proof.
  eapply is_derive_eq; [intros; unfold north; rewrite gravityNed_ok; reflexivity| |].
  2: { cbn [vec_of vx]. auto_derive; [|reflexivity]. auto. }
  field.
Qed.

Lemma down_derive_lat lat : is_derive (fun l => down (gravityNed l 0)) lat
  (sin (2 * lat) * g_ell' (sin lat * sin lat)).
Proof.
  pose proof (g_den_pos _ (t_range lat)) as D. pose proof (sqrt_lt_R0 _ D) as S. pose proof (sqrt_sqrt _ (Rlt_le _ _ D)) as Q.
  eapply is_derive_eq; [intros; unfold down; rewrite gravity_ellipsoid; reflexivity| |].
  2: { cbn [vec_of vz]. unfold g_ell, g_num, g_den. auto_derive; [|reflexivity].
       unfold g_den in D, S. split; [|split; auto].
       - replace (_ + _) with (gp_a * gp_a * (1 - sin lat * sin lat) + gp_b * gp_b * (sin lat * sin lat)) by ring. exact D.
       - apply Rgt_not_eq.
         match goal with |- sqrt ?x > 0 => replace x with (gp_a * gp_a * (1 - sin lat * sin lat) + gp_b * gp_b * (sin lat * sin lat)) by ring end.
         exact S. }
  rewrite sin_2a. unfold g_ell'. fold (g_num (sin lat * sin lat)).
  replace (gp_a * gp_a * (1 + - (sin lat * sin lat)) + gp_b * gp_b * (sin lat * sin lat)) with (g_den (sin lat * sin lat)) by (unfold g_den; ring).
  set (d := g_den _) in *. set (r := sqrt d) in *. unfold g_num. set (t := sin lat * sin lat) in *.
  rewrite <- Q. field. lra.
Qed.

(** ** Vertical gradient (Bruns) *)
Lemma sqrt_near u : 0 <= u <= 0.01 -> 1 - u/2 - u*u/7 <= sqrt (1 - u) <= 1 - u/2.
Proof.
  intros H. split.
  - apply Rsqr_incr_0_var; [|apply sqrt_pos]. rewrite Rsqr_sqrt by lra. unfold Rsqr. nra.
  - apply Rsqr_incr_0_var; [|lra]. rewrite Rsqr_sqrt by lra. unfold Rsqr. nra.
Qed.

Lemma g_ell_range t : 0 <= t <= 1 -> 9.7803 <= g_ell t <= 9.8322.
Proof.
  intros [[H0|<-] [H1| ->]]; rewrite ?g_ell_0, ?g_ell_1; unfold gp_gEq, gp_gPole; try lra.
  pose proof (g_ell_mono 0 t ltac:(lra) H0 ltac:(lra)) as A. pose proof (g_ell_mono t 1 ltac:(lra) H1 ltac:(lra)) as B.
  rewrite g_ell_0 in A. rewrite g_ell_1 in B. unfold gp_gEq, gp_gPole in *. lra.
Qed.

Lemma earth_w_t lat : earth_w lat = 1 - earth_e2 * (sin lat * sin lat).
Proof. unfold earth_w. ring. Qed.

Lemma curvature_sum lat : 1 / radius_M lat + 1 / radius_N lat
  = sqrt (1 - earth_e2 * (sin lat * sin lat)) * ((1 - earth_e2 * (sin lat * sin lat)) / (1 - earth_e2) + 1) / earth_a.
Proof.
  pose proof (t_range lat) as T. unfold radius_M, radius_N. rewrite earth_w_t.
  set (t := sin lat * sin lat) in *. clearbody t. assert (E : 0 < earth_e2 < 0.0067) by (unfold earth_e2, earth_f; lra).
  assert (W : 0 < 1 - earth_e2 * t) by nra. pose proof (sqrt_lt_R0 _ W). field. unfold earth_a. repeat split; lra.
Qed.

Lemma bruns_num t : 0 <= t <= 1 ->
  let B := sqrt (1 - earth_e2 * t) * ((1 - earth_e2 * t) / (1 - earth_e2) + 1) in
  -0.00004 <= 2 * (1 + gp_f - 2 * gp_f * t) - B <= 0.00003 /\ 1.99 <= B <= 2.1.
Proof.
  intros T B. assert (E : 0.0066943 < earth_e2 < 0.0066944) by (unfold earth_e2, earth_f; lra).
  set (u := earth_e2 * t). assert (U : 0 <= u <= 0.0067) by (unfold u; nra).
  destruct (sqrt_near u ltac:(lra)) as [S1 S2]. fold u in B.
  assert (KE : 1 / (1 - earth_e2) = (298257222101/297257222101) * (298257222101/297257222101)) by (unfold earth_e2, earth_f; field).
  assert (B' : B = sqrt (1 - u) * (1 / (1 - earth_e2) * (1 - u) + 1)) by (unfold B; field; lra).
  rewrite KE in B'. set (K := (298257222101/297257222101) * (298257222101/297257222101)) in *.
  assert (K1 : 1.0067 < K < 1.0068) by (unfold K; lra).
  assert (U2 : 0 <= u * u <= 0.0067 * u) by nra.
  assert (P : 1.99 < K * (1 - u) + 1 < 2.1) by nra.
  assert (L : (1 - u/2 - u*u/7) * (K * (1 - u) + 1) <= B <= (1 - u/2) * (K * (1 - u) + 1)).
  { rewrite B'. split; apply Rmult_le_compat_r; lra. }
  assert (X : (1 - u/2) * (K * (1 - u) + 1) = K + 1 - K * u - (K + 1) / 2 * u + K / 2 * (u * u)) by field.
  assert (D : u * u / 7 * (K * (1 - u) + 1) <= 0.3 * (u * u)) by nra.
  assert (X' : (1 - u/2 - u*u/7) * (K * (1 - u) + 1) = (1 - u/2) * (K * (1 - u) + 1) - u * u / 7 * (K * (1 - u) + 1)) by field.
  assert (Ku : K / 2 * (u * u) <= 0.51 * (u * u)) by nra.
  assert (Kp : 0 <= K / 2 * (u * u)) by nra.
  assert (Uf : u = (1000000000/298257222101) * (2 - 1000000000/298257222101) * t) by (unfold u, earth_e2, earth_f; field).
  assert (KU : K * u = (298257222101/297257222101) * (298257222101/297257222101) * (1000000000/298257222101) * (2 - 1000000000/298257222101) * t)
    by (rewrite Uf; unfold K; ring).
  assert (F : gp_f = 1000000000/298257222101) by (unfold gp_f; field). rewrite F.
  assert (U3 : u * u <= 0.000045) by nra.
  assert (KV : K = (298257222101/297257222101) * (298257222101/297257222101)) by reflexivity.
  clearbody K B u. clear B' KE S1 S2 E. rewrite X' in L. rewrite X in L. rewrite Uf in X at 1. clear X X'.
  assert (KH : (K + 1) / 2 * u = (K * u + u) / 2) by field. rewrite KH in L. rewrite KU in L.
  lra.
Qed.

Lemma bruns lat : exists d, is_derive (fun h => down (gravityNed lat h)) 0 d /\
  let b := - (down (gravityNed lat 0) * (1 / radius_M lat + 1 / radius_N lat) + 2 * earth_rate^2) in
  Rabs (d - b) <= 1/10000 * Rabs b.
Proof.
  eexists. split; [apply down_derive_h|]. cbv zeta. unfold down at 1 2. rewrite gravity_ellipsoid. cbn [vec_of vz].
  rewrite curvature_sum. pose proof (t_range lat) as T. set (t := sin lat * sin lat) in *.
  pose proof (g_ell_range t T) as G. set (g := g_ell t) in *. clearbody g.
  destruct (bruns_num t T) as [B1 B2]. set (B := sqrt _ * _) in *. clearbody B t.
  unfold g_m, gp_wE, gp_kM, gp_b, earth_rate. unfold gp_a, earth_a in *. set (f := gp_f) in *. clearbody f.
  set (X := 2 * (1 + f - 2 * f * t) - B) in *.
  set (s := - (g * (B / 6378137) + 2 * (7292115 / 100000000000) ^ 2)).
  assert (GB : 9.78 * 1.99 <= g * B) by nra.
  assert (GX : -0.0004 <= g * X <= 0.0004) by nra.
  assert (S : s <= - (9.78 * 1.99 / 6378137)) by (unfold s; lra).
  rewrite (Rabs_left s) by lra.
  assert (E : - (g * (2 / 6378137 * (1 + f + 7292115 / 1000000 * (1 / 100000) * (7292115 / 1000000 * (1 / 100000)) * (6378137 * 6378137) * (63567523141 / 10000) /
     (3986005 / 1000000 * 100000000000000) - 2 * f * t))) - s
    = - (g * X / 6378137) - 2 * (7292115 / 100000000000) ^ 2 * (6378137 * (63567523141 / 10000) / 398600500000000 * g - 1)) by (unfold s, X; field).
  rewrite E. apply Rabs_le. lra.
Qed.

(** ** Consistency of the north component *)
Lemma curl lat : exists dN dG, is_derive (fun h => north (gravityNed lat h)) 0 dN /\
  is_derive (fun l => down (gravityNed l 0)) lat dG /\
  Rabs (dN + dG / radius_M lat) <= 1/100 * Rabs dN.
Proof.
  do 2 eexists. split; [apply north_derive_h|]. split; [apply down_derive_lat|].
  unfold radius_M. rewrite earth_w_t. pose proof (t_range lat) as T. set (t := sin lat * sin lat) in *.
  set (W := 1 - earth_e2 * t). pose proof (g_den_pos t T) as D. unfold g_ell'.
  assert (E : 0 < earth_e2 < 0.0067) by (unfold earth_e2, earth_f; lra).
  assert (WP : 0 < W) by (unfold W; nra). pose proof (sqrt_lt_R0 _ WP) as SW. pose proof (sqrt_lt_R0 _ D) as SD.
  pose proof (sqrt_sqrt W (Rlt_le _ _ WP)) as QW. pose proof (sqrt_sqrt _ (Rlt_le _ _ D)) as QD.
  set (L := (gp_b * gp_gPole - gp_a * gp_gEq) * g_den t - g_num t * (gp_b * gp_b - gp_a * gp_a) / 2).
  set (r := earth_a * sqrt W / sqrt (g_den t)).
  assert (RP : 0 < r) by (unfold r, earth_a; apply Rdiv_lt_0_compat; [lra|auto]).
  assert (R2 : r * r = earth_a * earth_a * W / g_den t).
  { unfold r. rewrite <- QW at 3. rewrite <- QD at 3. field. lra. }
  assert (RB : 0.99999 <= r * r <= 1.00001).
  { rewrite R2. split; apply Rmult_le_reg_r with (g_den t); auto; unfold Rdiv; rewrite Rmult_assoc, Rinv_l by lra;
      unfold W, g_den, gp_a, gp_b, earth_a, earth_e2, earth_f; lra. }
  assert (R1 : 0.9999 <= r <= 1.0001) by nra.
  assert (R3 : 0.9998 <= r * r * r <= 1.0002) by nra.
  assert (LB : 0.0515 * earth_a^3 <= L <= 0.05164 * earth_a^3).
  { unfold L, g_num, g_den, gp_a, gp_b, gp_gEq, gp_gPole, earth_a. lra. }
  assert (X : sin (2 * lat) * (L / (g_den t * sqrt (g_den t))) / (earth_a * (1 - earth_e2) / (W * sqrt W))
    = sin (2 * lat) * (L * (r * r * r) / (earth_a ^ 4 * (1 - earth_e2)))).
  { rewrite R2. unfold r. field. unfold earth_a. repeat split; lra. }
  rewrite X. set (c := L * (r * r * r) / (earth_a ^ 4 * (1 - earth_e2))).
  assert (LR : 0.0514 * earth_a^3 <= L * (r * r * r) <= 0.05166 * earth_a^3).
  { unfold earth_a in *. nra. }
  assert (C : 0.00000000808 * 0.999 <= c <= 0.00000000808 * 1.01).
  { unfold c. assert (Z : 0 < earth_a ^ 4 * (1 - earth_e2)) by (unfold earth_a; nra).
    split; apply Rmult_le_reg_r with (earth_a ^ 4 * (1 - earth_e2)); auto; unfold Rdiv;
      rewrite (Rmult_assoc (L * _)), Rinv_l by lra; unfold earth_a, earth_e2, earth_f in *; nra. }
  clearbody c. set (s := sin (2 * lat)). clearbody s.
  replace (- (808 / 100) * (1 / 1000000) * (1 / 1000) * s + s * c) with (s * (c - 0.00000000808)) by lra.
  replace (- (808 / 100) * (1 / 1000000) * (1 / 1000) * s) with (s * - 0.00000000808) by lra.
  rewrite !Rabs_mult, (Rabs_left (- 0.00000000808)) by lra. pose proof (Rabs_pos s).
  assert (Rabs (c - 0.00000000808) <= 0.0000000000808) by (apply Rabs_le; lra). nra.
Qed.

(** ** Theorems of Pizzetti and Clairaut *)
Lemma down_equator : down (gravityNed 0 0) = gp_gEq.
Proof. unfold down. rewrite gravity_ellipsoid. cbn [vec_of vz]. rewrite sin_0, Rmult_0_l. apply g_ell_0. Qed.
Lemma down_pole : down (gravityNed (PI/2) 0) = gp_gPole.
Proof. unfold down. rewrite gravity_ellipsoid. cbn [vec_of vz]. rewrite sin_PI2, Rmult_1_l. apply g_ell_1. Qed.

Lemma pizzetti :
  let ge := down (gravityNed 0 0) in let gp := down (gravityNed (PI/2) 0) in
  let GM := 398600500000000 in
  Rabs (2 * ge / earth_a + gp / earth_b - (3 * GM / (earth_a^2 * earth_b) - 2 * earth_rate^2)) <= 1/10^8 * (gp / earth_b) /\
  Rabs ((gp - ge) / ge + earth_f - 5/2 * (earth_rate^2 * earth_a / ge)) <= 1/100 * ((gp - ge) / ge).
Proof.
  cbv zeta. rewrite down_equator, down_pole. unfold earth_b, earth_a, earth_f, earth_rate, gp_gEq, gp_gPole.
  split; apply Rabs_le; lra.
Qed.
