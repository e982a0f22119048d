(** Convergence of the navigator to the motion it computes. *)
From Coq Require Import Reals ZArith List Lra Lia Psatz.
From Coquelicot Require Import Coquelicot.
From Verif Require Import Base BaseVec SpecRot SpecEarth SpecStrapdown SpecConverge ModelGravity ModelNavUtils ModelStrapdown
  ProofVec ProofAttitude ProofGravity ProofFrames ProofFrames2 ProofNavUtils ProofStrapdown ProofStrapdownFloat ProofLip.
Import ListNotations.
Open Scope R_scope.

(** ** Coordinates of six-vectors and of matrices *)
Definition c6 (c : vec3 * vec3 -> R) : Prop :=
  c = (fun y => vx (fst y)) \/ c = (fun y => vy (fst y)) \/ c = (fun y => vz (fst y)) \/
  c = (fun y => vx (snd y)) \/ c = (fun y => vy (snd y)) \/ c = (fun y => vz (snd y)).
Ltac c6_cases H := destruct H as [->|[->|[->|[->|[->| ->]]]]].
Lemma six_c6 P : six P -> forall c, c6 c -> P c.
Proof. intros (H1 & H2 & H3 & H4 & H5 & H6) c Hc. c6_cases Hc; assumption. Qed.
Lemma c6_add c a b : c6 c -> c (s6add a b) = c a + c b.
Proof. intros Hc. c6_cases Hc; reflexivity. Qed.
Lemma c6_scale c k a : c6 c -> c (s6scale k a) = k * c a.
Proof. intros Hc. c6_cases Hc; reflexivity. Qed.
Ltac n1_bounds v := pose proof (Rabs_pos (vx v)); pose proof (Rabs_pos (vy v)); pose proof (Rabs_pos (vz v)).
Lemma c6_le c a b : c6 c -> Rabs (c a - c b) <= d6 a b.
Proof.
  intros Hc. unfold d6, n1. n1_bounds (vsub (fst a) (fst b)). n1_bounds (vsub (snd a) (snd b)). unfold vsub in *. cbn [vx vy vz] in *. c6_cases Hc; lra.
Qed.
Lemma d6_sum a b e : (forall c, c6 c -> Rabs (c a - c b) <= e) -> d6 a b <= 6 * e.
Proof.
  intros H. pose proof (H (fun y => vx (fst y)) ltac:(unfold c6; tauto)). pose proof (H (fun y => vy (fst y)) ltac:(unfold c6; tauto)).
  pose proof (H (fun y => vz (fst y)) ltac:(unfold c6; tauto)). pose proof (H (fun y => vx (snd y)) ltac:(unfold c6; tauto)).
  pose proof (H (fun y => vy (snd y)) ltac:(unfold c6; tauto)). pose proof (H (fun y => vz (snd y)) ltac:(unfold c6; tauto)).
  cbv beta in *. unfold d6, n1, vsub. cbn [vx vy vz]. lra.
Qed.
Lemma d6_tri a b c : d6 a c <= d6 a b + d6 b c.
Proof.
  unfold d6, n1, vsub. cbn [vx vy vz].
  assert (T : forall x y z, Rabs (x - z) <= Rabs (x - y) + Rabs (y - z)) by (intros; replace (x - z) with ((x - y) + (y - z)) by ring; apply Rabs_triang).
  pose proof (T (vx (fst a)) (vx (fst b)) (vx (fst c))). pose proof (T (vy (fst a)) (vy (fst b)) (vy (fst c))). pose proof (T (vz (fst a)) (vz (fst b)) (vz (fst c))).
  pose proof (T (vx (snd a)) (vx (snd b)) (vx (snd c))). pose proof (T (vy (snd a)) (vy (snd b)) (vy (snd c))). pose proof (T (vz (snd a)) (vz (snd b)) (vz (snd c))). lra.
Qed.
Lemma d6_sym a b : d6 a b = d6 b a.
Proof. unfold d6, n1, vsub. cbn [vx vy vz]. rewrite (Rabs_minus_sym (vx (fst a))), (Rabs_minus_sym (vy (fst a))), (Rabs_minus_sym (vz (fst a))), (Rabs_minus_sym (vx (snd a))), (Rabs_minus_sym (vy (snd a))), (Rabs_minus_sym (vz (snd a))). reflexivity. Qed.
Lemma d6_refl a : d6 a a = 0.
Proof. unfold d6, n1, vsub. cbn [vx vy vz]. rewrite !Rminus_eq_0, !Rabs_R0. ring. Qed.
Lemma n1_tri u v : n1 (vadd u v) <= n1 u + n1 v.
Proof. unfold n1, vadd. cbn [vx vy vz]. pose proof (Rabs_triang (vx u) (vx v)). pose proof (Rabs_triang (vy u) (vy v)). pose proof (Rabs_triang (vz u) (vz v)). lra. Qed.
Lemma n1_scale k v : n1 (vscale k v) = Rabs k * n1 v.
Proof. unfold n1, vscale. cbn [vx vy vz]. rewrite !Rabs_mult. ring. Qed.

Definition e9 (e : mat3 -> R) : Prop := e = m11 \/ e = m12 \/ e = m13 \/ e = m21 \/ e = m22 \/ e = m23 \/ e = m31 \/ e = m32 \/ e = m33.
Ltac e9_cases H := destruct H as [->|[->|[->|[->|[->|[->|[->|[->| ->]]]]]]]].
Lemma e9_le e A : e9 e -> Rabs (e A) <= n9 A.
Proof.
  intros He. unfold n9, n1, row1, row2, row3. cbn [vx vy vz].
  pose proof (Rabs_pos (m11 A)). pose proof (Rabs_pos (m12 A)). pose proof (Rabs_pos (m13 A)). pose proof (Rabs_pos (m21 A)). pose proof (Rabs_pos (m22 A)).
  pose proof (Rabs_pos (m23 A)). pose proof (Rabs_pos (m31 A)). pose proof (Rabs_pos (m32 A)). pose proof (Rabs_pos (m33 A)). e9_cases He; lra.
Qed.
Lemma n9_sum A x : (forall e, e9 e -> Rabs (e A) <= x) -> n9 A <= 9 * x.
Proof.
  intros H. unfold n9, n1, row1, row2, row3. cbn [vx vy vz].
  pose proof (H m11 ltac:(unfold e9; tauto)). pose proof (H m12 ltac:(unfold e9; tauto)). pose proof (H m13 ltac:(unfold e9; tauto)).
  pose proof (H m21 ltac:(unfold e9; tauto)). pose proof (H m22 ltac:(unfold e9; tauto)). pose proof (H m23 ltac:(unfold e9; tauto)).
  pose proof (H m31 ltac:(unfold e9; tauto)). pose proof (H m32 ltac:(unfold e9; tauto)). pose proof (H m33 ltac:(unfold e9; tauto)). lra.
Qed.
Lemma n9_pos A : 0 <= n9 A.
Proof. unfold n9. pose proof (n1_pos (row1 A)). pose proof (n1_pos (row2 A)). pose proof (n1_pos (row3 A)). lra. Qed.
Lemma n9_tri A B : n9 (madd A B) <= n9 A + n9 B.
Proof.
  unfold n9. pose proof (n1_tri (row1 A) (row1 B)). pose proof (n1_tri (row2 A) (row2 B)). pose proof (n1_tri (row3 A) (row3 B)).
  change (row1 (madd A B)) with (vadd (row1 A) (row1 B)). change (row2 (madd A B)) with (vadd (row2 A) (row2 B)). change (row3 (madd A B)) with (vadd (row3 A) (row3 B)). lra.
Qed.
Lemma n9_scale k A : n9 (mscale k A) = Rabs k * n9 A.
Proof. unfold n9. change (row1 (mscale k A)) with (vscale k (row1 A)). change (row2 (mscale k A)) with (vscale k (row2 A)). change (row3 (mscale k A)) with (vscale k (row3 A)). rewrite !n1_scale. ring. Qed.
Lemma tri3 a b c : Rabs (a + b + c) <= Rabs a + Rabs b + Rabs c.
Proof. eapply Rle_trans; [apply Rabs_triang|]. apply Rplus_le_compat_r, Rabs_triang. Qed.
Lemma row_mul a B : n1 (V3 (vx a * m11 B + vy a * m21 B + vz a * m31 B) (vx a * m12 B + vy a * m22 B + vz a * m32 B) (vx a * m13 B + vy a * m23 B + vz a * m33 B)) <= n1 a * n9 B.
Proof.
  unfold n1 at 1. cbn [vx vy vz]. eapply Rle_trans; [apply Rplus_le_compat; [apply Rplus_le_compat; apply tri3|apply tri3]|]. rewrite !Rabs_mult.
  n1_bounds a. pose proof (n1_pos (row1 B)). pose proof (n1_pos (row2 B)). pose proof (n1_pos (row3 B)).
  apply Rle_trans with (Rabs (vx a) * n1 (row1 B) + Rabs (vy a) * n1 (row2 B) + Rabs (vz a) * n1 (row3 B)); [unfold n1, row1, row2, row3; cbn [vx vy vz]; lra|].
  unfold n9. set (r1 := n1 (row1 B)) in *. set (r2 := n1 (row2 B)) in *. set (r3 := n1 (row3 B)) in *. unfold n1. nra.
Qed.
Lemma n9_mul A B : n9 (mmul A B) <= n9 A * n9 B.
Proof.
  pose proof (row_mul (row1 A) B). pose proof (row_mul (row2 A) B). pose proof (row_mul (row3 A) B). unfold n9 at 1 2. rewrite !Rmult_plus_distr_r.
  apply Rplus_le_compat; [apply Rplus_le_compat|]; assumption.
Qed.
Lemma n1_mv A v : n1 (mvmul A v) <= n9 A * n1 v.
Proof.
  unfold n1 at 1, mvmul. cbn [vx vy vz]. eapply Rle_trans; [apply Rplus_le_compat; [apply Rplus_le_compat; apply tri3|apply tri3]|]. rewrite !Rabs_mult.
  n1_bounds v. unfold n9, n1, row1, row2, row3. cbn [vx vy vz].
  pose proof (Rabs_pos (m11 A)). pose proof (Rabs_pos (m12 A)). pose proof (Rabs_pos (m13 A)). pose proof (Rabs_pos (m21 A)). pose proof (Rabs_pos (m22 A)).
  pose proof (Rabs_pos (m23 A)). pose proof (Rabs_pos (m31 A)). pose proof (Rabs_pos (m32 A)). pose proof (Rabs_pos (m33 A)).
  assert (K : forall x y z p q r, 0 <= x -> 0 <= y -> 0 <= z -> 0 <= p -> 0 <= q -> 0 <= r -> x * p + y * q + z * r <= (x + y + z) * (p + q + r)) by (intros; nra).
  rewrite !Rmult_plus_distr_r. 
  apply Rplus_le_compat; [apply Rplus_le_compat|]; rewrite <- !Rmult_plus_distr_r; apply K; assumption.
Qed.

(** ** Mean values *)
Lemma mvt g dg a h : 0 <= h -> (forall s, a <= s <= a + h -> is_derive g s (dg s)) -> exists x, a <= x <= a + h /\ g (a + h) - g a = h * dg x.
Proof.
  intros Hh Hd. destruct (Req_dec h 0) as [->|N]; [exists a; rewrite Rplus_0_r; split; [lra|ring]|].
  destruct (MVT_gen g a (a + h) dg) as (x & Hx & E).
  - rewrite Rmin_left, Rmax_right by lra. intros s Hs. apply Hd. lra.
  - rewrite Rmin_left, Rmax_right by lra. intros s Hs. apply derivable_continuous_pt. exists (dg s). apply is_derive_Reals, Hd. lra.
  - rewrite Rmin_left, Rmax_right in Hx by lra. exists x. split; [exact Hx|]. rewrite E. ring.
Qed.

(** ** The attitude update near the identity *)
Definition skw (v : vec3) : mat3 := M3 0 (- vz v) (vy v) (vz v) 0 (- vx v) (- vy v) (vx v) 0.
Lemma n9_skw v : n9 (skw v) = 2 * n1 v.
Proof. unfold n9, n1, skw, row1, row2, row3. cbn. rewrite !Rabs_Ropp, Rabs_R0. ring. Qed.
Lemma sin_small m : 0 < m -> Rabs (sin m / m) <= 1 /\ Rabs (sin m / m - 1) <= m /\ Rabs ((1 - cos m) / (m * m)) <= 1.
Proof.
  intros Hm.
  assert (Hc : forall a, 0 <= a -> Rabs (sin a) <= a /\ Rabs (cos a - 1) <= a).
  { intros a Ha. split.
    - destruct (mvt sin cos 0 a Ha) as (x & Hx & E); [intros; apply is_derive_Reals, derivable_pt_lim_sin|].
      rewrite Rplus_0_l, sin_0, Rminus_0_r in E. rewrite E, Rabs_mult, (Rabs_right a) by lra. pose proof (COS_bound x).
      assert (Rabs (cos x) <= 1) by (apply Rabs_le; lra). nra.
    - destruct (mvt cos (fun s => - sin s) 0 a Ha) as (x & Hx & E); [intros; apply is_derive_Reals, derivable_pt_lim_cos|].
      rewrite Rplus_0_l, cos_0 in E. rewrite E, Rabs_mult, (Rabs_right a) by lra. pose proof (SIN_bound x).
      assert (Rabs (- sin x) <= 1) by (apply Rabs_le; lra). nra. }
  split; [|split].
  - unfold Rdiv. rewrite Rabs_mult, (Rabs_right (/ m)) by (apply Rle_ge, Rlt_le, Rinv_0_lt_compat, Hm).
    apply Rmult_le_reg_r with m; [exact Hm|]. rewrite Rmult_assoc, Rinv_l by lra. pose proof (proj1 (Hc m ltac:(lra))). lra.
  - destruct (mvt sin cos 0 m ltac:(lra)) as (x & Hx & E); [intros; apply is_derive_Reals, derivable_pt_lim_sin|].
    rewrite Rplus_0_l, sin_0, Rminus_0_r in E. rewrite E. replace (m * cos x / m - 1) with (cos x - 1) by (field; lra).
    pose proof (proj2 (Hc x ltac:(lra))). lra.
  - destruct (mvt cos (fun s => - sin s) 0 m ltac:(lra)) as (x & Hx & E); [intros; apply is_derive_Reals, derivable_pt_lim_cos|].
    rewrite Rplus_0_l, cos_0 in E. replace (1 - cos m) with (m * sin x) by lra. replace (m * sin x / (m * m)) with (sin x / m) by (field; lra).
    unfold Rdiv. rewrite Rabs_mult, (Rabs_right (/ m)) by (apply Rle_ge, Rlt_le, Rinv_0_lt_compat, Hm).
    apply Rmult_le_reg_r with m; [exact Hm|]. rewrite Rmult_assoc, Rinv_l by lra. pose proof (proj1 (Hc x ltac:(lra))). lra.
Qed.
Lemma norm_n1 d : norm d <= n1 d.
Proof.
  unfold norm, dot, n1. n1_bounds d. rewrite <- (sqrt_Rsqr (Rabs (vx d) + Rabs (vy d) + Rabs (vz d))) by lra. apply sqrt_le_1_alt. unfold Rsqr.
  assert (S : forall x, x * x = Rabs x * Rabs x) by (intros x; rewrite <- Rabs_mult; symmetry; apply Rabs_right; nra).
  rewrite (S (vx d)), (S (vy d)), (S (vz d)). nra.
Qed.
Lemma update_form A d : d <> v3zero -> exists B, updateAttitude A d = Ret (true, mmul A B) /\
  n9 (msub B m3id) <= 2 * n1 d + 4 * (n1 d * n1 d) /\ n9 (msub (msub B m3id) (skw d)) <= 6 * (n1 d * n1 d).
Proof.
  intros N. pose proof (norm_pos d N) as P. unfold updateAttitude. cbn [skewSymmetric negb].
  rewrite (Rdivc_ok _ (norm d)) by lra. cbn [bind]. rewrite Rdivc_ok by nra. cbn [bind].
  fold (skw d). destruct (sin_small _ P) as (S1 & S2 & S3). pose proof (norm_n1 d) as Hn. pose proof (n1_pos d).
  set (s := sin (norm d) / norm d) in *. set (k := (1 - cos (norm d)) / (norm d * norm d)) in *.
  eexists. split; [reflexivity|]. pose proof (n9_skw d) as E9.
  assert (EQ : n9 (mmul (mscale k (skw d)) (skw d)) <= 4 * (n1 d * n1 d)).
  { eapply Rle_trans; [apply n9_mul|]. rewrite n9_scale, E9. pose proof (Rabs_pos k). nra. }
  split.
  - replace (msub (madd (madd m3id (mscale s (skw d))) (mmul (mscale k (skw d)) (skw d))) m3id) with (madd (mscale s (skw d)) (mmul (mscale k (skw d)) (skw d)))
      by (unfold msub, madd, m3id; cbn [m11 m12 m13 m21 m22 m23 m31 m32 m33]; apply m3_eq; ring).
    eapply Rle_trans; [apply n9_tri|]. rewrite n9_scale, E9. pose proof (Rabs_pos s). nra.
  - replace (msub (msub (madd (madd m3id (mscale s (skw d))) (mmul (mscale k (skw d)) (skw d))) m3id) (skw d)) with (madd (mscale (s - 1) (skw d)) (mmul (mscale k (skw d)) (skw d)))
      by (unfold msub, madd, m3id, mscale; cbn [m11 m12 m13 m21 m22 m23 m31 m32 m33]; apply m3_eq; ring).
    eapply Rle_trans; [apply n9_tri|]. rewrite n9_scale, E9. pose proof (Rabs_pos (s - 1)). nra.
Qed.

(** ** The Runge-Kutta step *)
Section RK.
Variables A H V A' H' V' delta M L Q : R.
Hypothesis Hd : 0 < delta.
Hypothesis HM : 0 <= M.
Hypothesis HL : 0 <= L.
Hypothesis HQ : 0 <= Q.
Hypothesis Hreg : forall y, Box A' H' V' y -> regular y.
Hypothesis Hin : forall y z, Box A H V y -> d6 z y <= delta -> Box A' H' V' z.
Hypothesis HG : forall c, c6 c -> forall y z q r, Box A' H' V' y -> Box A' H' V' z ->
  Rabs (c (G y q)) <= M + n1 q /\ Rabs (c (G y q) - c (G z r)) <= L * d6 y z + n1 (vsub q r).

(** From [y], within half of delta of a point [p] of the box. *)
Lemma stage p y q h k z : Box A H V p -> d6 y p <= delta / 2 -> n1 q <= Q -> 0 <= h -> 6 * h * (M + Q) <= delta / 2 -> 0 <= k <= 1 ->
  Box A' H' V' z -> let x := s6add y (s6scale k (s6scale h (G z q))) in Box A' H' V' x /\ d6 x y <= 6 * h * (M + Q).
Proof.
  intros Bp Dy Hq Hh Hs Hk Bz x.
  assert (D : d6 x y <= 6 * h * (M + Q)).
  { replace (6 * h * (M + Q)) with (6 * (h * (M + Q))) by ring. apply d6_sum. intros c Hc. unfold x. rewrite c6_add, !c6_scale by exact Hc.
    replace (c y + k * (h * c (G z q)) - c y) with (k * (h * c (G z q))) by ring. rewrite !Rabs_mult, (Rabs_right k), (Rabs_right h) by lra.
    pose proof (proj1 (HG c Hc z z q q Bz Bz)). pose proof (Rabs_pos (c (G z q))).
    apply Rle_trans with (1 * (h * Rabs (c (G z q)))); [apply Rmult_le_compat_r; [apply Rmult_le_pos; lra|lra]|]. rewrite Rmult_1_l. apply Rmult_le_compat_l; lra. }
  split; [|exact D]. apply Hin with p; [exact Bp|]. pose proof (d6_tri x y p). lra.
Qed.
Lemma rk_step p y a g h : Box A H V p -> d6 y p <= delta / 2 -> 0 < h -> n1 (vadd (vscale (/ h) a) g) <= Q -> 6 * h * (M + Q) <= delta / 2 ->
  exists y', rk4_step y h a g = Ret y' /\
    forall c x r, c6 c -> Box A' H' V' x ->
      Rabs (c y' - c y - h * c (G x r)) <= h * (L * (d6 y x + 6 * h * (M + Q)) + n1 (vsub (vadd (vscale (/ h) a) g) r)).
Proof.
  intros Bp Dy Hh Hq Hs. set (q := vadd (vscale (/ h) a) g) in *.
  assert (By : Box A' H' V' y) by (apply Hin with p; [exact Bp|lra]).
  assert (DG : forall z, Box A' H' V' z -> strapdownDynamics z a g h = Ret (G z q)).
  { intros z Bz. rewrite dynamics_ok by (try lra; apply Hreg; exact Bz). now rewrite dyn_G. }
  destruct (stage p y q h (/ 2) y Bp Dy Hq ltac:(lra) Hs ltac:(lra) By) as [B2 D2]. set (y2 := s6add y (s6scale (/ 2) (s6scale h (G y q)))) in *.
  destruct (stage p y q h (/ 2) y2 Bp Dy Hq ltac:(lra) Hs ltac:(lra) B2) as [B3 D3]. set (y3 := s6add y (s6scale (/ 2) (s6scale h (G y2 q)))) in *.
  destruct (stage p y q h 1 y3 Bp Dy Hq ltac:(lra) Hs ltac:(lra) B3) as [B4 D4].
  replace (s6scale 1 (s6scale h (G y3 q))) with (s6scale h (G y3 q)) in B4, D4 by (unfold s6scale, vscale; cbn [fst snd vx vy vz]; rewrite !Rmult_1_l; reflexivity).
  set (y4 := s6add y (s6scale h (G y3 q))) in *.
  unfold rk4_step. rewrite (DG y By). cbn [bind]. fold y2. rewrite (DG y2 B2). cbn [bind]. fold y3. rewrite (DG y3 B3). cbn [bind]. fold y4. rewrite (DG y4 B4). cbn [bind].
  eexists. split; [reflexivity|]. intros c x r Hc Bx. rewrite !c6_add, !c6_scale by exact Hc.
  assert (E : forall z, Box A' H' V' z -> d6 z y <= 6 * h * (M + Q) -> Rabs (c (G z q) - c (G x r)) <= L * (d6 y x + 6 * h * (M + Q)) + n1 (vsub q r)).
  { intros z Bz Dz. eapply Rle_trans; [apply (HG c Hc z x q r Bz Bx)|]. apply Rplus_le_compat_r, Rmult_le_compat_l; [exact HL|]. pose proof (d6_tri z y x). lra. }
  pose proof (d6_refl y). assert (0 <= 6 * h * (M + Q)) by (apply Rmult_le_pos; lra).
  pose proof (E y By ltac:(lra)) as E1. pose proof (E y2 B2 D2) as E2. pose proof (E y3 B3 D3) as E3. pose proof (E y4 B4 D4) as E4.
  set (R1 := c (G y q)) in *. set (R2 := c (G y2 q)) in *. set (R3 := c (G y3 q)) in *. set (R4 := c (G y4 q)) in *. set (R0 := c (G x r)) in *.
  set (b := L * (d6 y x + 6 * h * (M + Q)) + n1 (vsub q r)) in *. 
  replace (c y + 1 / 6 * (h * R1) + 1 / 3 * (h * R2) + 1 / 3 * (h * R3) + 1 / 6 * (h * R4) - c y - h * R0)
    with (h * (1 / 6 * (R1 - R0) + 1 / 3 * (R2 - R0) + 1 / 3 * (R3 - R0) + 1 / 6 * (R4 - R0))) by field.
  rewrite Rabs_mult, (Rabs_right h) by lra. apply Rmult_le_compat_l; [lra|].
  apply Rabs_le_between in E1, E2, E3, E4. apply Rabs_le. lra.
Qed.
End RK.

(** ** The true motion *)
Lemma rotation_n9 A : is_rotation A -> n9 A <= 9.
Proof.
  intros HR. apply rotation_matrix in HR as (_ & O1 & _). replace 9 with (9 * 1) by ring. apply n9_sum.
  destruct A as [a11 a12 a13 a21 a22 a23 a31 a32 a33]. unvec. injection O1 as U1 U2 U3 U4 U5 U6 U7 U8 U9.
  assert (K : forall a b c, a * a + b * b + c * c = 1 -> Rabs a <= 1) by (intros a b c E; apply Rabs_le; nra).
  intros e He. e9_cases He; cbn.
  all: first [apply (K a11 a21 a31); lra|apply (K a21 a11 a31); lra|apply (K a31 a21 a11); lra|
    apply (K a12 a22 a32); lra|apply (K a22 a12 a32); lra|apply (K a32 a22 a12); lra|
    apply (K a13 a23 a33); lra|apply (K a23 a13 a33); lra|apply (K a33 a23 a13); lra].
Qed.
Lemma cross_skw W w : (forall u, mvmul W u = cross w u) -> W = skw w.
Proof.
  intros E. pose proof (E (V3 1 0 0)) as E1. pose proof (E (V3 0 1 0)) as E2. pose proof (E (V3 0 0 1)) as E3.
  destruct W, w. unfold mvmul, cross in *. cbn in *. injection E1 as ? ? ?. injection E2 as ? ? ?. injection E3 as ? ? ?. unfold skw. cbn. apply m3_eq; lra.
Qed.
Lemma mat_derive_e C t D e : e9 e -> mat_derive C t D -> is_derive (fun s => e (C s)) t (e D).
Proof. intros He ((? & ? & ?) & (? & ? & ?) & (? & ? & ?)). e9_cases He; assumption. Qed.
Lemma vec_derive_c y t p v c : c6 c -> vec_derive (fun s => fst (y s)) t p -> vec_derive (fun s => snd (y s)) t v -> is_derive (fun s => c (y s)) t (c (p, v)).
Proof. intros Hc (? & ? & ?) (? & ? & ?). c6_cases Hc; assumption. Qed.
Lemma motion_derive T C y f w t : motion T C y f w -> 0 <= t <= T -> n9 (C t) <= 9 /\
  (forall e, e9 e -> is_derive (fun s => e (C s)) t (e (mmul (C t) (skw (w t))))) /\
  (forall c, c6 c -> is_derive (fun s => c (y s)) t (c (G (y t) (vadd (mvmul (C t) (f t)) (grav (y t)))))).
Proof.
  intros Hm Ht. destruct (Hm t Ht) as (HR & (W & HW & DC) & g & p & v & Hg & Hd & Dp & Dv). split; [apply rotation_n9, HR|]. split.
  - intros e He. rewrite <- (cross_skw W (w t) HW). apply mat_derive_e; assumption.
  - intros c Hc. rewrite gravityNed_ok in Hg. fold (grav (y t)) in Hg. injection Hg as <-. apply dynamics_form in Hd as (_ & _ & E). rewrite dyn_G in E.
    replace (vscale (/ 1) (mvmul (C t) (f t))) with (mvmul (C t) (f t)) in E by (rewrite Rinv_1; unfold vscale; destruct (mvmul (C t) (f t)); cbn; rewrite !Rmult_1_l; reflexivity).
    rewrite <- E. apply vec_derive_c; assumption.
Qed.
Lemma n1_sub_tri u v z : n1 (vsub u z) <= n1 (vsub u v) + n1 (vsub v z).
Proof. replace (vsub u z) with (vadd (vsub u v) (vsub v z)) by (unfold vsub, vadd; cbn; apply v3_eq; ring). apply n1_tri. Qed.
Lemma d9_tri X Y Z : d9 X Z <= d9 X Y + d9 Y Z.
Proof. unfold d9. replace (msub X Z) with (madd (msub X Y) (msub Y Z)) by (unfold msub, madd; cbn; apply m3_eq; ring). apply n9_tri. Qed.
Lemma n9_tri_sub X Y : n9 X <= d9 X Y + n9 Y.
Proof. unfold d9. replace X with (madd (msub X Y) Y) at 1 by (destruct X, Y; unfold msub, madd; cbn; apply m3_eq; ring). apply n9_tri. Qed.
Lemma n1_tri_sub u v : n1 u <= n1 (vsub u v) + n1 v.
Proof. replace u with (vadd (vsub u v) v) at 1 by (destruct u, v; unfold vsub, vadd; cbn; apply v3_eq; ring). apply n1_tri. Qed.
Lemma e9_sub e X Y : e9 e -> e (msub X Y) = e X - e Y.
Proof. intros He. e9_cases He; reflexivity. Qed.
Lemma e9_add e X Y : e9 e -> e (madd X Y) = e X + e Y.
Proof. intros He. e9_cases He; reflexivity. Qed.
Lemma e9_scale e k X : e9 e -> e (mscale k X) = k * e X.
Proof. intros He. e9_cases He; reflexivity. Qed.

Section Truth.
Variables (T : R) (C : R -> mat3) (y : R -> vec3 * vec3) (f w : R -> vec3) (W : R).
Hypothesis Hm : motion T C y f w.
Hypothesis HW0 : 0 <= W.
Hypothesis HW : forall t, 0 <= t <= T -> n1 (w t) <= W.

Lemma C_move t h : 0 <= t -> 0 <= h -> t + h <= T -> d9 (C (t + h)) (C t) <= 162 * h * W.
Proof.
  intros H0 Hh HT. unfold d9. replace (162 * h * W) with (9 * (h * (9 * (2 * W)))) by ring. apply n9_sum. intros e He. rewrite e9_sub by exact He.
  destruct (mvt (fun s => e (C s)) (fun s => e (mmul (C s) (skw (w s)))) t h Hh) as (x & Hx & E).
  { intros s Hs. apply (motion_derive T C y f w s Hm); [lra|exact He]. }
  rewrite E, Rabs_mult, (Rabs_right h) by lra. apply Rmult_le_compat_l; [exact Hh|]. eapply Rle_trans; [apply e9_le; exact He|]. eapply Rle_trans; [apply n9_mul|].
  rewrite n9_skw. destruct (motion_derive T C y f w x Hm) as [H9 _]; [lra|]. pose proof (HW x ltac:(lra)). pose proof (n9_pos (C x)). pose proof (n1_pos (w x)).
  apply Rmult_le_compat; lra.
Qed.

Definition ka : R := 2916 * (W * W) + 162 + 54 * ((W + 1) * (W + 1)) + 2 * (W + 1) + 4 * ((W + 1) * (W + 1)).
Lemma ka_pos : 0 < ka.
Proof. unfold ka. nra. Qed.
Lemma att_step t h dTh eps A0 : 0 <= t -> 0 < h <= 1 -> t + h <= T -> dTh <> v3zero -> 0 <= eps <= 1 ->
  (forall s, t <= s <= t + h -> n1 (vsub dTh (vscale h (w s))) <= h * eps) ->
  exists A1, updateAttitude A0 dTh = Ret (true, A1) /\ d9 A1 (C (t + h)) <= d9 A0 (C t) + ka * h * (d9 A0 (C t) + h + eps).
Proof.
  intros H0 Hh HT Hn He Hs. destruct (update_form A0 dTh Hn) as (B & EB & B1 & B2). exists (mmul A0 B). split; [exact EB|].
  set (X := skw dTh) in *. set (n := n1 dTh) in *.
  assert (Nn : 0 <= n <= h * (W + 1)).
  { split; [apply n1_pos|]. unfold n. eapply Rle_trans; [apply (n1_tri_sub dTh (vscale h (w t)))|]. rewrite n1_scale, (Rabs_right h) by lra.
    pose proof (Hs t ltac:(lra)). pose proof (HW t ltac:(lra)). nra. }
  assert (Nn2 : n * n <= h * h * ((W + 1) * (W + 1))) by nra.
  destruct (motion_derive T C y f w t Hm) as (HC9 & _); [lra|].
  assert (Loc : n9 (msub (madd (C t) (mmul (C t) X)) (C (t + h))) <= 9 * (h * (324 * h * (W * W) + 18 * eps))).
  { apply n9_sum. intros e Hee. rewrite e9_sub, e9_add by exact Hee.
    destruct (mvt (fun s => e (C s)) (fun s => e (mmul (C s) (skw (w s)))) t h ltac:(lra)) as (x & Hx & E).
    { intros s Hss. apply (motion_derive T C y f w s Hm); [lra|exact Hee]. }
    replace (e (C t) + e (mmul (C t) X) - e (C (t + h))) with (e (mmul (C t) X) - h * e (mmul (C x) (skw (w x)))) by lra.
    rewrite <- e9_scale, <- e9_sub by exact Hee.
    replace (msub (mmul (C t) X) (mscale h (mmul (C x) (skw (w x))))) with (madd (mmul (C t) (skw (vsub dTh (vscale h (w x))))) (mscale (- h) (mmul (msub (C x) (C t)) (skw (w x)))))
      by (unfold X, msub, madd, mmul, mscale, skw, vsub, vscale; cbn; apply m3_eq; ring).
    eapply Rle_trans; [apply e9_le; exact Hee|]. eapply Rle_trans; [apply n9_tri|]. rewrite n9_scale, Rabs_Ropp, (Rabs_right h) by lra.
    pose proof (n9_mul (C t) (skw (vsub dTh (vscale h (w x))))) as P1. rewrite n9_skw in P1. pose proof (Hs x Hx) as P2.
    pose proof (n9_mul (msub (C x) (C t)) (skw (w x))) as P3. rewrite n9_skw in P3. pose proof (HW x ltac:(lra)) as P4.
    pose proof (C_move t (x - t) H0 ltac:(lra) ltac:(lra)) as P5. replace (t + (x - t)) with x in P5 by ring. unfold d9 in P5.
    pose proof (n9_pos (C t)). pose proof (n9_pos (msub (C x) (C t))). pose proof (n1_pos (w x)). pose proof (n1_pos (vsub dTh (vscale h (w x)))).
    assert (P6 : n9 (msub (C x) (C t)) <= 162 * h * W) by nra.
    assert (Q1 : n9 (C t) * (2 * n1 (vsub dTh (vscale h (w x)))) <= 9 * (2 * (h * eps))) by (apply Rmult_le_compat; lra).
    assert (Q2 : n9 (msub (C x) (C t)) * (2 * n1 (w x)) <= 162 * h * W * (2 * W)) by (apply Rmult_le_compat; lra).
    assert (Q3 : h * n9 (mmul (msub (C x) (C t)) (skw (w x))) <= h * (162 * h * W * (2 * W))) by (apply Rmult_le_compat_l; lra).
    lra. }
  unfold d9 at 1.
  replace (msub (mmul A0 B) (C (t + h))) with
    (madd (madd (msub A0 (C t)) (mmul (msub A0 (C t)) (msub B m3id))) (madd (mmul (C t) (msub (msub B m3id) X)) (msub (madd (C t) (mmul (C t) X)) (C (t + h)))))
    by (destruct A0, B, (C t), (C (t + h)), X; unfold msub, madd, mmul, m3id; cbn; apply m3_eq; ring).
  eapply Rle_trans; [apply n9_tri|]. eapply Rle_trans; [apply Rplus_le_compat; apply n9_tri|].
  fold (d9 A0 (C t)). set (a := d9 A0 (C t)). assert (Ha : 0 <= a) by apply n9_pos.
  pose proof (n9_mul (msub A0 (C t)) (msub B m3id)) as P1. fold (d9 A0 (C t)) in P1. fold a in P1.
  pose proof (n9_mul (C t) (msub (msub B m3id) X)) as P2. pose proof (n9_pos (C t)). pose proof (n9_pos (msub B m3id)). pose proof (n9_pos (msub (msub B m3id) X)).
  assert (Q1 : n9 (msub B m3id) <= h * (2 * (W + 1) + 4 * ((W + 1) * (W + 1)))) by nra.
  assert (Q1' : a * n9 (msub B m3id) <= a * (h * (2 * (W + 1) + 4 * ((W + 1) * (W + 1))))) by (apply Rmult_le_compat_l; lra).
  assert (Q2 : n9 (C t) * n9 (msub (msub B m3id) X) <= 9 * (6 * (h * h * ((W + 1) * (W + 1))))) by (apply Rmult_le_compat; lra).
  apply Rle_trans with (a + a * (h * (2 * (W + 1) + 4 * ((W + 1) * (W + 1)))) + (9 * (6 * (h * h * ((W + 1) * (W + 1)))) + 9 * (h * (324 * h * (W * W) + 18 * eps)))); [lra|].
  set (w2 := (W + 1) * (W + 1)). assert (0 <= w2) by (unfold w2; nra). assert (0 <= W * W) by nra.
  set (k1 := 2916 * (W * W) + 162 + 54 * w2). set (k2 := 2 * (W + 1) + 4 * w2). assert (0 <= k1) by (unfold k1; lra). assert (0 <= k2) by (unfold k2; lra).
  replace ka with (k1 + k2) by (unfold k1, k2, ka; fold w2; ring).
  assert (Ea : 0 <= h * a) by nra. assert (Eh : 0 <= h * h) by nra. assert (Ee : 0 <= h * eps) by nra.
  assert (K1 : 0 <= k1 * (h * a)) by nra. assert (K2 : 0 <= k2 * (h * h)) by nra. assert (K3 : 0 <= k2 * (h * eps)) by nra.
  assert (K4 : 54 * w2 * (h * h) + 2916 * (W * W) * (h * h) <= k1 * (h * h)) by (unfold k1; nra).
  assert (K5 : 162 * (h * eps) <= k1 * (h * eps)) by (unfold k1; nra).
  replace (a * (h * k2)) with (k2 * (h * a)) by ring.
  replace ((k1 + k2) * h * (a + h + eps)) with (k1 * (h * a) + k2 * (h * a) + k1 * (h * h) + k2 * (h * h) + k1 * (h * eps) + k2 * (h * eps)) by ring.
  replace (9 * (6 * (h * h * w2)) + 9 * (h * (324 * h * (W * W) + 18 * eps))) with (54 * w2 * (h * h) + 2916 * (W * W) * (h * h) + 162 * (h * eps)) by ring.
  lra.
Qed.
End Truth.

(** ** One call *)
Lemma d6_sum2 a b a' b' x : (forall c, c6 c -> Rabs (c a - c b) <= Rabs (c a' - c b') + x) -> d6 a b <= d6 a' b' + 6 * x.
Proof.
  intros H. pose proof (H (fun y => vx (fst y)) ltac:(unfold c6; tauto)). pose proof (H (fun y => vy (fst y)) ltac:(unfold c6; tauto)).
  pose proof (H (fun y => vz (fst y)) ltac:(unfold c6; tauto)). pose proof (H (fun y => vx (snd y)) ltac:(unfold c6; tauto)).
  pose proof (H (fun y => vy (snd y)) ltac:(unfold c6; tauto)). pose proof (H (fun y => vz (snd y)) ltac:(unfold c6; tauto)).
  cbv beta in *. unfold d6, n1, vsub. cbn [vx vy vz]. lra.
Qed.
Lemma nav_call_ok A0 y0 dV dTh h A1 y1 : updateAttitude A0 dTh = Ret (true, A1) -> rk4_step y0 h (mvmul A1 dV) (grav y0) = Ret y1 -> nav_call (A0, y0) dV dTh h = Ret (A1, y1).
Proof.
  intros E1 E2. destruct y0 as [[p1 p2 p3] [v1 v2 v3]]. unfold nav_call. rewrite E1. cbn [bind snd vx vy vz]. rewrite gravityNed_ok. cbn [bind snd].
  change (V3 (- (808 / 100) * (1 / 1000000) * (p3 / 1000) * sin (2 * p1)) 0 (g_ell (sin p1 * sin p1) * g_alt (sin p1 * sin p1) p3)) with (grav (V3 p1 p2 p3, V3 v1 v2 v3)).
  unfold strapdownRk4. cbn [length Nat.eqb]. rewrite E2. cbn [bind snd]. destruct y1 as [[] []]. reflexivity.
Qed.
Lemma box_in A H V d y z : Box A H V y -> d6 z y <= d -> Box (A + d) (H + d) (V + d) z.
Proof.
  intros (B1 & B2 & B3 & B4 & B5) D.
  assert (K : forall c, c6 c -> Rabs (c z) <= Rabs (c y) + d).
  { intros c Hc. pose proof (c6_le c z y Hc). replace (c z) with ((c z - c y) + c y) by ring. eapply Rle_trans; [apply Rabs_triang|]. lra. }
  pose proof (K (fun y => vx (fst y)) ltac:(unfold c6; tauto)). pose proof (K (fun y => vz (fst y)) ltac:(unfold c6; tauto)).
  pose proof (K (fun y => vx (snd y)) ltac:(unfold c6; tauto)). pose proof (K (fun y => vy (snd y)) ltac:(unfold c6; tauto)). pose proof (K (fun y => vz (snd y)) ltac:(unfold c6; tauto)).
  cbv beta in *. unfold Box. repeat split; lra.
Qed.

Section Step.
Variables A H V Fm W delta M L : R.
Hypothesis HFm : 0 <= Fm.
Hypothesis HW0 : 0 <= W.
Hypothesis Hd : 0 < delta <= / 4.
Hypothesis HM : 0 <= M.
Hypothesis HL : 0 <= L.
Let Bx := Box (A + delta) (H + delta) (V + delta).
Hypothesis Hreg : forall y, Bx y -> regular y.
Hypothesis HG : forall c, c6 c -> forall y z q r, Bx y -> Bx z -> Rabs (c (G y q)) <= M + n1 q /\ Rabs (c (G y q) - c (G z r)) <= L * d6 y z + n1 (vsub q r).
Hypothesis Hgr : forall y z, Bx y -> Bx z -> n1 (grav y) <= M /\ n1 (vsub (grav y) (grav z)) <= L * d6 y z.
Definition Qm : R := 10 * (Fm + 1) + M.
Definition kb : R := 2 * L + 18 * L * (M + Qm) + (1 + 162 * W) * (Fm + 1) + 9.
Definition kap : R := ka W + 6 * kb * (1 + ka W).

Variables (T : R) (C : R -> mat3) (y : R -> vec3 * vec3) (f w : R -> vec3).
Hypothesis Hm : motion T C y f w.
Hypothesis Hb : forall t, 0 <= t <= T -> Box A H V (y t) /\ n1 (f t) <= Fm /\ n1 (w t) <= W.

Definition qt (t : R) : vec3 := vadd (mvmul (C t) (f t)) (grav (y t)).
Lemma Qm_pos : 0 < Qm.
Proof. unfold Qm. lra. Qed.
Lemma bx_y t : 0 <= t <= T -> Bx (y t).
Proof. intros Ht. apply box_in with (y t); [apply Hb, Ht|rewrite d6_refl; lra]. Qed.
Lemma qt_le t : 0 <= t <= T -> n1 (qt t) <= Qm.
Proof.
  intros Ht. destruct (Hb t Ht) as (_ & Hf & _). destruct (motion_derive T C y f w t Hm Ht) as (H9 & _). unfold qt, Qm.
  eapply Rle_trans; [apply n1_tri|]. pose proof (n1_mv (C t) (f t)). pose proof (proj1 (Hgr _ _ (bx_y t Ht) (bx_y t Ht))). pose proof (n1_pos (f t)). pose proof (n9_pos (C t)).
  assert (n9 (C t) * n1 (f t) <= 9 * Fm) by (apply Rmult_le_compat; lra). lra.
Qed.
Lemma y_move t h : 0 <= t -> 0 <= h -> t + h <= T -> d6 (y (t + h)) (y t) <= 6 * h * (M + Qm).
Proof.
  intros H0 Hh HT. replace (6 * h * (M + Qm)) with (6 * (h * (M + Qm))) by ring. apply d6_sum. intros c Hc.
  destruct (mvt (fun s => c (y s)) (fun s => c (G (y s) (qt s))) t h Hh) as (x & Hx & E).
  { intros s Hs. apply (motion_derive T C y f w s Hm); [lra|exact Hc]. }
  rewrite E, Rabs_mult, (Rabs_right h) by lra. apply Rmult_le_compat_l; [exact Hh|].
  pose proof (bx_y x ltac:(lra)) as B. pose proof (proj1 (HG c Hc _ _ (qt x) (qt x) B B)). pose proof (qt_le x ltac:(lra)). lra.
Qed.

Lemma call_step t h dV dTh eps A0 y0 : 0 <= t -> 0 < h <= 1 -> 12 * ka W * h <= 1 -> 6 * h * (M + Qm) <= delta / 2 -> t + h <= T -> dTh <> v3zero -> 0 <= eps <= 1 ->
  (forall s, t <= s <= t + h -> n1 (vsub dV (vscale h (f s))) <= h * eps /\ n1 (vsub dTh (vscale h (w s))) <= h * eps) ->
  d9 A0 (C t) + d6 y0 (y t) <= delta / 2 ->
  exists A1 y1, nav_call (A0, y0) dV dTh h = Ret (A1, y1) /\
    d9 A1 (C (t + h)) + d6 y1 (y (t + h)) <= d9 A0 (C t) + d6 y0 (y t) + kap * h * (d9 A0 (C t) + d6 y0 (y t) + h + eps).
Proof.
  intros H0 Hh Hka Hs HT Hn He Hsm HE.
  set (a := d9 A0 (C t)) in *. set (e := d6 y0 (y t)) in *. assert (Ha : 0 <= a) by apply n9_pos. assert (Hep : 0 <= e) by apply d6_pos.
  pose proof (ka_pos W) as Kp. pose proof Qm_pos as Qp.
  destruct (att_step T C y f w W Hm HW0 (fun s Hs => proj2 (proj2 (Hb s Hs))) t h dTh eps A0 H0 Hh HT Hn He (fun s Hs => proj2 (Hsm s Hs))) as (A1 & E1 & D1).
  fold a in D1. set (a1 := d9 A1 (C (t + h))) in *. assert (Ha1 : 0 <= a1) by apply n9_pos.
  assert (Ka : ka W * h <= / 12) by lra. assert (Kh : 0 <= ka W * h) by nra.
  assert (Ha1' : a1 <= 1) by nra.
  destruct (motion_derive T C y f w (t + h) Hm) as (H9 & _); [lra|].
  assert (N10 : n9 A1 <= 10) by (pose proof (n9_tri_sub A1 (C (t + h))); fold a1 in H1; lra).
  assert (Bt : Box A H V (y t)) by (apply Hb; lra).
  assert (By0 : Bx y0) by (apply box_in with (y t); [exact Bt|fold e; lra]).
  set (u := vscale (/ h) dV).
  assert (Hinv : 0 < / h) by (apply Rinv_0_lt_compat; lra).
  assert (Hu : forall s, t <= s <= t + h -> n1 (vsub u (f s)) <= eps).
  { intros s Hss. pose proof (proj1 (Hsm s Hss)) as K. replace (vsub u (f s)) with (vscale (/ h) (vsub dV (vscale h (f s)))) by (unfold u, vscale, vsub; cbn; apply v3_eq; field; lra).
    rewrite n1_scale, Rabs_right by lra. apply Rmult_le_reg_l with h; [lra|]. rewrite <- Rmult_assoc, Rinv_r, Rmult_1_l by lra. exact K. }
  assert (Nu : n1 u <= Fm + 1).
  { pose proof (n1_tri_sub u (f t)). pose proof (Hu t ltac:(lra)). destruct (Hb t) as (_ & F & _); [lra|]. lra. }
  assert (Eu : vscale (/ h) (mvmul A1 dV) = mvmul A1 u) by (unfold u, vscale, mvmul; cbn; apply v3_eq; ring).
  assert (Hq : n1 (vadd (vscale (/ h) (mvmul A1 dV)) (grav y0)) <= Qm).
  { rewrite Eu. eapply Rle_trans; [apply n1_tri|]. pose proof (n1_mv A1 u). pose proof (proj1 (Hgr _ _ By0 By0)). pose proof (n1_pos u). pose proof (n9_pos A1).
    assert (n9 A1 * n1 u <= 10 * (Fm + 1)) by (apply Rmult_le_compat; lra). unfold Qm. lra. }
  destruct (rk_step A H V (A + delta) (H + delta) (V + delta) delta M L Qm) with (p := y t) (y := y0) (a := mvmul A1 dV) (g := grav y0) (h := h) as (y1 & E2 & D2); try assumption; try lra.
  { intros p z Bp. apply box_in; assumption. }
  { fold e; lra. }
  exists A1, y1. split; [apply nav_call_ok; assumption|]. fold a1.
  set (beta := L * (e + 12 * h * (M + Qm)) + ((a1 + 162 * h * W) * (Fm + 1) + 9 * eps) + L * (e + 6 * h * (M + Qm))).
  assert (DY : d6 y1 (y (t + h)) <= e + 6 * (h * beta)).
  { unfold e. apply d6_sum2. intros c Hc.
    destruct (mvt (fun s => c (y s)) (fun s => c (G (y s) (qt s))) t h ltac:(lra)) as (x & Hx & E).
    { intros s Hss. apply (motion_derive T C y f w s Hm); [lra|exact Hc]. }
    pose proof (bx_y x ltac:(lra)) as B.
    pose proof (D2 c (y x) (qt x) Hc B) as D.
    replace (c y1 - c (y (t + h))) with ((c y0 - c (y t)) + (c y1 - c y0 - h * c (G (y x) (qt x)))) by lra.
    eapply Rle_trans; [apply Rabs_triang|]. apply Rplus_le_compat_l. eapply Rle_trans; [exact D|]. apply Rmult_le_compat_l; [lra|].
    assert (Dx : d6 y0 (y x) <= e + 6 * h * (M + Qm)).
    { pose proof (d6_tri y0 (y t) (y x)). pose proof (y_move t (x - t) H0 ltac:(lra) ltac:(lra)) as K. replace (t + (x - t)) with x in K by ring. rewrite d6_sym in K.
      fold e in H1. nra. }
    assert (Dq : n1 (vsub (vadd (vscale (/ h) (mvmul A1 dV)) (grav y0)) (qt x)) <= (a1 + 162 * h * W) * (Fm + 1) + 9 * eps + L * (e + 6 * h * (M + Qm))).
    { rewrite Eu. unfold qt.
      replace (vsub (vadd (mvmul A1 u) (grav y0)) (vadd (mvmul (C x) (f x)) (grav (y x))))
        with (vadd (vadd (mvmul (msub A1 (C x)) u) (mvmul (C x) (vsub u (f x)))) (vsub (grav y0) (grav (y x)))) by (unfold vadd, vsub, mvmul, msub; cbn; apply v3_eq; ring).
      eapply Rle_trans; [apply n1_tri|]. apply Rplus_le_compat; [eapply Rle_trans; [apply n1_tri|]; apply Rplus_le_compat|].
      - eapply Rle_trans; [apply n1_mv|]. apply Rmult_le_compat; [apply n9_pos|apply n1_pos| |exact Nu].
        fold (d9 A1 (C x)). pose proof (d9_tri A1 (C (t + h)) (C x)) as K. fold a1 in K.
        pose proof (C_move T C y f w W Hm (fun s Hs => proj2 (proj2 (Hb s Hs))) x (t + h - x) ltac:(lra) ltac:(lra) ltac:(lra)) as K2. replace (x + (t + h - x)) with (t + h) in K2 by ring. nra.
      - eapply Rle_trans; [apply n1_mv|]. destruct (motion_derive T C y f w x Hm) as (N9 & _); [lra|].
        apply Rmult_le_compat; [apply n9_pos|apply n1_pos|exact N9|apply Hu; lra].
      - eapply Rle_trans; [apply (Hgr _ _ By0 B)|]. apply Rmult_le_compat_l; assumption. }
    unfold beta.
    assert (L * (d6 y0 (y x) + 6 * h * (M + Qm)) <= L * (e + 12 * h * (M + Qm))) by (apply Rmult_le_compat_l; lra). lra. }
  assert (Bb : beta <= kb * (e + a1 + h + eps)).
  { unfold beta, kb. set (m := M + Qm) in *. assert (0 <= m) by (unfold m; lra). 
    assert (0 <= L * m) by nra. assert (0 <= W * (Fm + 1)) by nra.
    replace (L * (e + 12 * h * m) + ((a1 + 162 * h * W) * (Fm + 1) + 9 * eps) + L * (e + 6 * h * m)) with
      (2 * L * e + 18 * L * m * h + (Fm + 1) * a1 + 162 * W * (Fm + 1) * h + 9 * eps) by ring.
    replace (2 * L + 18 * L * m + (1 + 162 * W) * (Fm + 1) + 9) with (2 * L + 18 * (L * m) + (Fm + 1) + 162 * (W * (Fm + 1)) + 9) by ring.
    set (p := L * m) in *. set (r := W * (Fm + 1)) in *. set (s := e + a1 + h + eps). assert (e <= s /\ a1 <= s /\ h <= s /\ eps <= s) as (S1 & S2 & S3 & S4) by (unfold s; lra).
    replace (18 * L * m * h) with (18 * (p * h)) by (unfold p; ring). replace (162 * W * (Fm + 1) * h) with (162 * (r * h)) by (unfold r; ring).
    assert (L * e <= L * s) by nra. assert (p * h <= p * s) by nra. assert ((Fm + 1) * a1 <= (Fm + 1) * s) by nra. assert (r * h <= r * s) by nra. lra. }
  assert (Kb : 0 <= kb).
  { unfold kb. assert (0 <= L * (M + Qm)) by nra. assert (0 <= W * (Fm + 1)) by nra. lra. }
  set (S := a + e + h + eps). assert (Sp : 0 <= S) by (unfold S; lra).
  assert (A1S : a1 <= a + ka W * h * S) by (unfold S; nra).
  assert (X1 : e + a1 + h + eps <= (1 + ka W) * S).
  { assert (ka W * h * S <= ka W * S) by (apply Rmult_le_compat_r; [exact Sp|nra]). unfold S in *. lra. }
  assert (X2 : beta <= kb * ((1 + ka W) * S)) by (eapply Rle_trans; [exact Bb|]; apply Rmult_le_compat_l; assumption).
  assert (X3 : h * beta <= h * (kb * ((1 + ka W) * S))) by (apply Rmult_le_compat_l; lra).
  unfold kap. replace ((ka W + 6 * kb * (1 + ka W)) * h * S) with (ka W * h * S + 6 * (h * (kb * ((1 + ka W) * S)))) by ring. lra.
Qed.
End Step.

(** ** A whole run *)
Lemma exp_ge x : 1 + x <= exp x.
Proof. destruct (Req_dec x 0) as [->|N]; [rewrite exp_0; lra|]. left. apply exp_ineq1. exact N. Qed.
Theorem navigator_converges : forall A H V Fm W T, 0 <= A < PI / 2 -> 0 <= H < 6200000 -> 0 <= V -> 0 <= Fm -> 0 <= W -> 0 <= T ->
  exists K d, 0 < K /\ 0 < d /\ forall C y f w l C0 y0 eta eps,
    motion T C y f w -> (forall t, 0 <= t <= T -> Box A H V (y t) /\ n1 (f t) <= Fm /\ n1 (w t) <= W) ->
    0 <= eta -> 0 <= eps -> sampled T eta eps f w 0 l -> d9 C0 (C 0) + d6 y0 (y 0) + eta + eps <= d ->
    exists C1 y1, nav_run (C0, y0) l = Ret (C1, y1) /\
      d9 C1 (C (end_time 0 l)) + d6 y1 (y (end_time 0 l)) <= K * (d9 C0 (C 0) + d6 y0 (y 0) + eta + eps).
Proof.
  intros A H V Fm W T HA HH HV HF HW HT.
  set (delta := Rmin (/ 4) (Rmin ((PI / 2 - A) / 2) (6200000 - H))).
  assert (D0 : 0 < delta) by (unfold delta; apply Rmin_pos; [lra|apply Rmin_pos; lra]).
  assert (D1 : delta <= / 4) by apply Rmin_l.
  assert (D2 : delta <= (PI / 2 - A) / 2) by (unfold delta; eapply Rle_trans; [apply Rmin_r|apply Rmin_l]).
  assert (D3 : delta <= 6200000 - H) by (unfold delta; eapply Rle_trans; [apply Rmin_r|apply Rmin_r]).
  clearbody delta.
  destruct (field_bounds (A + delta) (H + delta) (V + delta)) as (M & L & HM & HL & H6 & Hgr); try lra.
  pose proof (six_c6 _ H6) as HG.
  assert (Hreg : forall y, Box (A + delta) (H + delta) (V + delta) y -> regular y) by (intros z Hz; apply (box_regular (A + delta) (H + delta) (V + delta)); try assumption; lra).
  set (k := kap Fm W M L). set (q := Qm Fm M). assert (Hq : 0 < q) by (unfold q, Qm; lra). pose proof (ka_pos W) as Kp.
  assert (Hk : 0 <= k).
  { unfold k, kap. assert (0 <= kb Fm W M L). { unfold kb. fold q. assert (0 <= L * (M + q)) by nra. assert (0 <= W * (Fm + 1)) by nra. lra. } nra. }
  set (K := exp (k * T)). assert (K0 : 0 < K) by apply exp_pos.
  set (d := Rmin (Rmin 1 (/ (12 * ka W))) (Rmin (delta / (12 * (M + q))) (delta / (2 * K)))).
  assert (P1 : 0 < / (12 * ka W)) by (apply Rinv_0_lt_compat; lra).
  assert (P2 : 0 < delta / (12 * (M + q))) by (apply Rdiv_lt_0_compat; lra).
  assert (P3 : 0 < delta / (2 * K)) by (apply Rdiv_lt_0_compat; lra).
  assert (Hd : 0 < d) by (unfold d; repeat apply Rmin_pos; lra).
  assert (L1 : d <= 1) by (unfold d; eapply Rle_trans; [apply Rmin_l|apply Rmin_l]).
  assert (L2 : d <= / (12 * ka W)) by (unfold d; eapply Rle_trans; [apply Rmin_l|apply Rmin_r]).
  assert (L3 : d <= delta / (12 * (M + q))) by (unfold d; eapply Rle_trans; [apply Rmin_r|apply Rmin_l]).
  assert (L4 : d <= delta / (2 * K)) by (unfold d; eapply Rle_trans; [apply Rmin_r|apply Rmin_r]).
  clearbody d. exists K, d. split; [exact K0|]. split; [exact Hd|]. intros C y f w l C0 y0 eta eps Hm Hb He1 He2 Hs HZ.
  set (S := eta + eps). set (Z := d9 C0 (C 0) + d6 y0 (y 0) + S). replace (d9 C0 (C 0) + d6 y0 (y 0) + eta + eps) with Z in * by (unfold Z, S; ring).
  assert (p9 : forall X Y, 0 <= d9 X Y) by (intros; apply n9_pos). assert (p6 := d6_pos).
  assert (Zp : 0 <= Z) by (unfold Z, S; pose proof (p9 C0 (C 0)); pose proof (p6 y0 (y 0)); lra).
  assert (EtaZ : eta <= d /\ eps <= d) by (unfold Z, S in HZ; pose proof (p9 C0 (C 0)); pose proof (p6 y0 (y 0)); lra).
  assert (KZ : K * Z <= delta / 2).
  { apply Rle_trans with (K * (delta / (2 * K))); [apply Rmult_le_compat_l; lra|]. right. field. lra. }
  assert (Hexp : forall t, t <= T -> exp (k * t) <= K).
  { intros t Ht. unfold K. destruct (Req_dec (k * t) (k * T)) as [->|Ne]; [lra|]. left. apply exp_increasing. pose proof (Rmult_le_compat_l k t T Hk Ht). lra. }
  assert (Main : forall l t A0 x0, 0 <= t <= T -> sampled T eta eps f w t l -> d9 A0 (C t) + d6 x0 (y t) + S <= exp (k * t) * Z ->
    exists A1 x1, nav_run (A0, x0) l = Ret (A1, x1) /\ d9 A1 (C (end_time t l)) + d6 x1 (y (end_time t l)) <= K * Z).
  { clear l Hs. intros l. induction l as [|[[dV dTh] h] l IH]; intros t A0 x0 Ht Hs HE.
    - exists A0, x0. split; [reflexivity|]. cbn [end_time]. pose proof (Rmult_le_compat_r Z _ _ Zp (Hexp t ltac:(lra))). unfold S in *. lra.
    - cbn [sampled] in Hs. destruct Hs as (Hh & HhT & Hn & Hsm & Hs). cbn [nav_run end_time].
      destruct (call_step A H V Fm W delta M L HF HW ltac:(lra) HM HL Hreg HG Hgr T C y f w Hm Hb t h dV dTh eps A0 x0) as (A1 & x1 & E1 & E2); try assumption; try lra.
      + apply Rle_trans with (12 * ka W * (/ (12 * ka W))); [apply Rmult_le_compat_l; lra|]. right. field. lra.
      + fold q. apply Rle_trans with (6 * (delta / (12 * (M + q))) * (M + q)); [apply Rmult_le_compat_r; lra|]. right. field. lra.
      + pose proof (Rmult_le_compat_r Z _ _ Zp (Hexp t ltac:(lra))). unfold S in *. lra.
      + rewrite E1. cbn [bind]. apply IH; [lra|exact Hs|]. fold k in E2.
        set (E := d9 A0 (C t) + d6 x0 (y t)) in *. assert (0 <= E) by (unfold E; pose proof (p9 A0 (C t)); pose proof (p6 x0 (y t)); lra).
        replace (exp (k * (t + h)) * Z) with (exp (k * h) * (exp (k * t) * Z)) by (rewrite Rmult_plus_distr_l, exp_plus; ring).
        apply Rle_trans with ((1 + k * h) * (E + S)).
        * unfold S in *. assert (0 <= k * h) by (apply Rmult_le_pos; lra). assert (k * h * (E + h + eps) <= k * h * (E + (eta + eps))) by (apply Rmult_le_compat_l; lra). lra.
        * apply Rmult_le_compat; [assert (0 <= k * h) by (apply Rmult_le_pos; lra); lra|unfold S; lra|apply exp_ge|exact HE]. }
  apply Main; [lra|exact Hs|]. rewrite Rmult_0_r, exp_0, Rmult_1_l. unfold Z. lra.
Qed.

(** ** The calls of the code *)
Lemma call_of_integrate A y t0 d dV dTh t A1 y1 : fits (t - t0) ->
  (nav_call (A, y) dV dTh (IZR (t - t0) / 1000000) = Ret (A1, y1) <->
   integrate dV dTh t (Some (NavS (Some A) (Some y) t0 d)) = Ret (true, Some (NavS (Some A1) (Some y1) t (IZR (t - t0) / 1000000)))).
Proof.
  intros F. destruct (integrate_eq dV dTh t (NavS (Some A) (Some y) t0 d)) as [I1 _]. cbn [RB2N pv tov] in I1. rewrite I1 by exact F. clear I1.
  set (h := IZR (t - t0) / 1000000). unfold nav_call, next_att, next_pv. destruct y as [p v]. cbn [fst].
  destruct (update_total A dTh) as [->|(A' & ->)]; [split; discriminate|]. cbn [bind snd]. destruct (gravity_total (vx p) (vz p)) as (g & ->). cbn [bind snd].
  change [vx p; vy p; vz p; vx v; vy v; vz v] with (s6list (p, v)). rewrite strapdownRk4_eq by reflexivity.
  destruct (rk4_total (p, v) h (mvmul A' dV) g) as [->|([[] []] & ->)]; [split; discriminate|]. cbn. split; intros E; injection E as <- <-; reflexivity.
Qed.
