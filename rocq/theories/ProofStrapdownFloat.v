(** Error analysis of the attitude update in rounded arithmetic. *)
From Coq Require Import Reals ZArith List Lra Lia Psatz.
From Flocq Require Import Core.
From Verif Require Import Base BaseVec SpecRot ModelAttitude ModelNavUtils ModelStrapdown ModelDate ModelStrapdownFloat
  SpecStrapdown SpecFloatOps ProofVec ProofAttitude ProofAttitude2 ProofStrapdown ProofStrapdown2 ProofDate.
Import ListNotations.
Open Scope R_scope.

(** ** Constants *)
Lemma u64_val : u64 = / 9007199254740992.
Proof. unfold u64. cbn. reflexivity. Qed.
Lemma u64_bounds : 0 < u64 <= 1 / 1000000000000000.
Proof. rewrite u64_val. lra. Qed.
Lemma eta_pos : 0 <= eta64. Proof. apply bpow_ge_0. Qed.
Definition mu : R := bpow radix2 (-480).
Lemma mu_pos : 0 < mu. Proof. apply bpow_gt_0. Qed.
Lemma eta_mu2 : eta64 * 1000 <= u64 * (mu * mu).
Proof.
  unfold eta64, u64, mu. rewrite <- !bpow_plus. apply Rle_trans with (bpow radix2 (-1075) * bpow radix2 10).
  - apply Rmult_le_compat_l; [apply bpow_ge_0|]. cbn. lra.
  - rewrite <- bpow_plus. apply bpow_le. lia.
Qed.
Lemma mu_le : mu <= 1 / 1000.
Proof.
  unfold mu. apply Rle_trans with (bpow radix2 (-10)); [apply bpow_le; lia|]. cbn. lra.
Qed.
Lemma eta_u : eta64 * 1000 <= u64.
Proof. pose proof eta_mu2. pose proof mu_le. pose proof mu_pos. pose proof u64_bounds. assert (mu * mu <= 1) by nra. nra. Qed.

(** ** Elementary bounds *)
Lemma abs_le_inv' x b : Rabs x <= b -> - b <= x <= b. Proof. apply Rabs_le_inv. Qed.
Lemma sin_lip a b : Rabs (sin a - sin b) <= Rabs (a - b).
Proof.
  destruct (MVT_abs sin cos b a) as (c & E & _). { intros. apply derivable_pt_lim_sin. }
  rewrite E. assert (Rabs (cos c) <= 1) by (apply Rabs_le, COS_bound). pose proof (Rabs_pos (a - b)). nra.
Qed.
Lemma cos_lip a b : Rabs (cos a - cos b) <= Rabs (a - b).
Proof.
  destruct (MVT_abs cos (fun x => - sin x) b a) as (c & E & _). { intros. apply derivable_pt_lim_cos. }
  rewrite E. assert (Rabs (- sin c) <= 1) by (rewrite Rabs_Ropp; apply Rabs_le, SIN_bound). pose proof (Rabs_pos (a - b)). nra.
Qed.
Lemma abs_tri a b c x y : Rabs (a - b) <= x -> Rabs (b - c) <= y -> Rabs (a - c) <= x + y.
Proof. intros. replace (a - c) with ((a - b) + (b - c)) by ring. pose proof (Rabs_triang (a - b) (b - c)). lra. Qed.
Lemma abs_near a b k M : Rabs (a - b) <= k -> Rabs b <= M -> Rabs a <= M + k.
Proof. intros. replace a with ((a - b) + b) by ring. pose proof (Rabs_triang (a - b) b). lra. Qed.
(** Product of two approximations. *)
Lemma abs_prod p p0 q q0 e e' M N : Rabs (p - p0) <= e -> Rabs (q - q0) <= e' -> Rabs p0 <= M -> Rabs q <= N ->
  Rabs (p * q - p0 * q0) <= e * N + M * e'.
Proof.
  intros H1 H2 H3 H4. replace (p * q - p0 * q0) with ((p - p0) * q + p0 * (q - q0)) by ring.
  eapply Rle_trans; [apply Rabs_triang|]. rewrite !Rabs_mult.
  pose proof (Rabs_pos (p - p0)). pose proof (Rabs_pos (q - q0)). pose proof (Rabs_pos p0). pose proof (Rabs_pos q).
  apply Rplus_le_compat; apply Rmult_le_compat; lra.
Qed.

(** ** Vectors and matrices *)
Definition small (b : R) (v : vec3) : Prop := Rabs (vx v) <= b /\ Rabs (vy v) <= b /\ Rabs (vz v) <= b.
(** Entry-wise nearness. *)
Definition near (e : R) (A B : mat3) : Prop :=
  (Rabs (m11 A - m11 B) <= e /\ Rabs (m12 A - m12 B) <= e /\ Rabs (m13 A - m13 B) <= e) /\
  (Rabs (m21 A - m21 B) <= e /\ Rabs (m22 A - m22 B) <= e /\ Rabs (m23 A - m23 B) <= e) /\
  (Rabs (m31 A - m31 B) <= e /\ Rabs (m32 A - m32 B) <= e /\ Rabs (m33 A - m33 B) <= e).
Lemma comp_le v : small (norm v) v.
Proof.
  pose proof (norm_sq v) as S. pose proof (norm_nonneg v) as N. set (n := norm v) in *. clearbody n.
  unfold dot in S. destruct v as [x y z]. cbn in S. unfold small. cbn [vx vy vz].
  pose proof (Rle_0_sqr x). pose proof (Rle_0_sqr y). pose proof (Rle_0_sqr z). unfold Rsqr in *.
  rewrite <- (Rabs_right n) by lra. repeat split; apply Rsqr_le_abs_0; unfold Rsqr; lra.
Qed.
Lemma cauchy a b : Rabs (dot a b) <= norm a * norm b.
Proof.
  pose proof (norm_sq a) as A. pose proof (norm_sq b) as B. pose proof (norm_nonneg a). pose proof (norm_nonneg b).
  rewrite <- (Rabs_right (norm a * norm b)) by nra. apply Rsqr_le_abs_0. unfold Rsqr.
  replace (norm a * norm b * (norm a * norm b)) with ((norm a * norm a) * (norm b * norm b)) by ring. rewrite A, B.
  destruct a as [x y z], b as [p q r]. unfold dot; cbn.
  pose proof (Rle_0_sqr (x * q - y * p)). pose proof (Rle_0_sqr (x * r - z * p)). pose proof (Rle_0_sqr (y * r - z * q)).
  unfold Rsqr in *. nra.
Qed.
Lemma norm_tri a b : norm (vadd a b) <= norm a + norm b.
Proof.
  pose proof (norm_sq a) as A. pose proof (norm_sq b) as B. pose proof (norm_nonneg a). pose proof (norm_nonneg b).
  pose proof (norm_sq (vadd a b)) as C. pose proof (norm_nonneg (vadd a b)). pose proof (cauchy a b) as D. apply Rabs_le_inv in D.
  replace (dot (vadd a b) (vadd a b)) with (dot a a + 2 * dot a b + dot b b) in C by (destruct a, b; unfold dot; cbn; ring).
  apply Rsqr_incr_0; [unfold Rsqr|lra|lra]. nra.
Qed.
Lemma dot_small a v e : small e a -> Rabs (dot a v) <= e * (Rabs (vx v) + Rabs (vy v) + Rabs (vz v)).
Proof.
  intros (H1 & H2 & H3). unfold dot. eapply Rle_trans; [apply Rabs_triang|]. eapply Rle_trans; [apply Rplus_le_compat_r, Rabs_triang|].
  rewrite !Rabs_mult. pose proof (Rabs_pos (vx v)). pose proof (Rabs_pos (vy v)). pose proof (Rabs_pos (vz v)).
  assert (Rabs (vx a) * Rabs (vx v) <= e * Rabs (vx v)) by (apply Rmult_le_compat_r; lra).
  assert (Rabs (vy a) * Rabs (vy v) <= e * Rabs (vy v)) by (apply Rmult_le_compat_r; lra).
  assert (Rabs (vz a) * Rabs (vz v) <= e * Rabs (vz v)) by (apply Rmult_le_compat_r; lra). lra.
Qed.
Lemma sum3_sq v : (Rabs (vx v) + Rabs (vy v) + Rabs (vz v)) * (Rabs (vx v) + Rabs (vy v) + Rabs (vz v)) <= 3 * (norm v * norm v).
Proof.
  rewrite norm_sq. unfold dot. pose proof (Rsqr_abs (vx v)) as X. pose proof (Rsqr_abs (vy v)) as Y. pose proof (Rsqr_abs (vz v)) as Z.
  unfold Rsqr in *. rewrite X, Y, Z. set (a := Rabs (vx v)). set (b := Rabs (vy v)). set (c := Rabs (vz v)).
  pose proof (Rle_0_sqr (a - b)). pose proof (Rle_0_sqr (a - c)). pose proof (Rle_0_sqr (b - c)). unfold Rsqr in *. nra.
Qed.
Lemma norm_small w b : small b w -> norm w * norm w <= 3 * (b * b).
Proof.
  intros (H1 & H2 & H3). rewrite norm_sq. unfold dot.
  assert (Q : forall x, Rabs x <= b -> x * x <= b * b).
  { intros x Hx. pose proof (Rsqr_abs x) as E. unfold Rsqr in E. rewrite E. pose proof (Rabs_pos x). nra. }
  pose proof (Q _ H1). pose proof (Q _ H2). pose proof (Q _ H3). lra.
Qed.
Lemma near_op e A B : near e A B -> close_to (3 * e) A (mvmul B).
Proof.
  intros (H1 & H2 & H3) v. assert (E0 : 0 <= e) by (pose proof (Rabs_pos (m11 A - m11 B)); lra).
  set (s := Rabs (vx v) + Rabs (vy v) + Rabs (vz v)).
  assert (S : small (e * s) (vsub (mvmul A v) (mvmul B v))).
  { repeat split; cbn.
    - replace (_ - _) with (dot (V3 (m11 A - m11 B) (m12 A - m12 B) (m13 A - m13 B)) v) by (unfold dot; cbn; ring). now apply dot_small.
    - replace (_ - _) with (dot (V3 (m21 A - m21 B) (m22 A - m22 B) (m23 A - m23 B)) v) by (unfold dot; cbn; ring). now apply dot_small.
    - replace (_ - _) with (dot (V3 (m31 A - m31 B) (m32 A - m32 B) (m33 A - m33 B)) v) by (unfold dot; cbn; ring). now apply dot_small. }
  pose proof (norm_small _ _ S) as N. pose proof (sum3_sq v) as Q. fold s in Q.
  pose proof (norm_nonneg v). apply Rsqr_incr_0; [unfold Rsqr|apply norm_nonneg|nra].
  eapply Rle_trans; [exact N|]. replace (3 * (e * s * (e * s))) with (3 * (e * e) * (s * s)) by ring.
  replace (3 * e * norm v * (3 * e * norm v)) with (3 * (e * e) * (3 * (norm v * norm v))) by ring.
  apply Rmult_le_compat_l; nra.
Qed.
(** Entries of a matrix that stretches no vector by more than [b]. *)
Lemma entries_le A b : (forall v, norm (mvmul A v) <= b * norm v) ->
  small b (row1 A) /\ small b (row2 A) /\ small b (row3 A).
Proof.
  intros H. assert (N : forall v, dot v v = 1 -> norm v = 1) by (intros v E; unfold norm; rewrite E; apply sqrt_1).
  assert (Q : forall v, dot v v = 1 -> small b (mvmul A v)).
  { intros v E. pose proof (H v) as Hv. rewrite (N v E), Rmult_1_r in Hv. destruct (comp_le (mvmul A v)) as (K1 & K2 & K3).
    repeat split; lra. }
  destruct (Q (V3 1 0 0) ltac:(unfold dot; cbn; ring)) as (X1 & X2 & X3).
  destruct (Q (V3 0 1 0) ltac:(unfold dot; cbn; ring)) as (Y1 & Y2 & Y3).
  destruct (Q (V3 0 0 1) ltac:(unfold dot; cbn; ring)) as (Z1 & Z2 & Z3).
  cbn in *. rewrite ?Rmult_0_r, ?Rmult_1_r, ?Rplus_0_l, ?Rplus_0_r in *. repeat split; assumption.
Qed.

Section Float.
Variable F : FloatOps.
Hypothesis HF : float_ok F.
Notation u := u64.

Lemma rnd_le x : Rabs (frnd F x - x) <= u * Rabs x + eta64. Proof. apply HF. Qed.

(** A rounded factor, in absolute terms. *)
Lemma rnd_mul t x b k M : Rabs (t * x - b) <= k * u -> Rabs b <= M -> 0 <= k <= 1000000 -> Rabs x <= 16 ->
  Rabs (frnd F t * x - b) <= (k + M + 1) * u.
Proof.
  intros H1 H2 Hk Hx. pose proof u64_bounds as U. pose proof eta_u as E. pose proof eta_pos as E0.
  pose proof (abs_near _ _ _ _ H1 H2) as H3. pose proof (rnd_le t) as H4.
  assert (H5 : Rabs (frnd F t * x - t * x) <= u * Rabs (t * x) + eta64 * 16).
  { replace (frnd F t * x - t * x) with ((frnd F t - t) * x) by ring. rewrite !Rabs_mult.
    pose proof (Rabs_pos x). pose proof (Rabs_pos t). pose proof (Rabs_pos (frnd F t - t)).
    apply Rle_trans with ((u * Rabs t + eta64) * Rabs x); [apply Rmult_le_compat_r; lra|]. nra. }
  pose proof (abs_tri _ _ _ _ _ H5 H1) as H6. eapply Rle_trans; [exact H6|].
  assert (k * u <= 1 / 1000000000) by nra.
  assert (u * Rabs (t * x) <= u * (M + 1 / 1000000000)) by (apply Rmult_le_compat_l; lra). lra.
Qed.
Lemma rnd_err a b k M : Rabs (a - b) <= k * u -> Rabs b <= M -> 0 <= k <= 1000000 ->
  Rabs (frnd F a - b) <= (k + M + 1) * u.
Proof.
  intros. replace (frnd F a) with (frnd F a * 1) by ring. apply rnd_mul; auto.
  - now rewrite Rmult_1_r.
  - rewrite Rabs_R1. lra.
Qed.

(** ** A computed product with a matrix close to an isometry *)
Lemma fdot_near a b : small 2 a -> small (11 / 10) b -> Rabs (fdot F a b - dot a b) <= 30 * u.
Proof.
  intros (A1 & A2 & A3) (B1 & B2 & B3). eapply Rle_trans; [apply (proj1 (proj2 HF))|].
  pose proof u64_bounds as U. pose proof eta_u. pose proof eta_pos. rewrite !Rabs_mult.
  assert (P : forall x y, Rabs x <= 2 -> Rabs y <= 11 / 10 -> Rabs x * Rabs y <= 22 / 10).
  { intros x y Hx Hy. replace (22 / 10) with (2 * (11 / 10)) by field. apply Rmult_le_compat; auto using Rabs_pos. }
  pose proof (P _ _ A1 B1). pose proof (P _ _ A2 B2). pose proof (P _ _ A3 B3). nra.
Qed.
Lemma prod_close e k A f Bc B : (forall v, norm (f v) = norm v) -> close_to e A f -> 0 <= e <= 1 ->
  (forall v, norm (mvmul B v) = norm v) -> near (k * u) Bc B -> 0 <= k <= 1000 ->
  close_to (e + (6 * k + 90) * u) (mmul_f F A Bc) (fun v => f (mvmul B v)).
Proof.
  intros Hf HA He HB NB Hk v. pose proof u64_bounds as U.
  assert (KU : k * u <= 1 / 1000) by nra.
  assert (HA2 : forall w, norm (mvmul A w) <= 2 * norm w).
  { intros w. replace (mvmul A w) with (vadd (vsub (mvmul A w) (f w)) (f w)) by (destruct (f w); unfold vadd, vsub; cbn; apply v3_eq; ring).
    eapply Rle_trans; [apply norm_tri|]. rewrite Hf. pose proof (HA w). pose proof (norm_nonneg w). nra. }
  destruct (entries_le A 2 HA2) as (A1 & A2 & A3).
  assert (HB1 : forall w, norm (mvmul B w) <= 1 * norm w) by (intros w; rewrite HB; lra).
  destruct (entries_le B 1 HB1) as ((P11 & P12 & P13) & (P21 & P22 & P23) & (P31 & P32 & P33)). cbn in P11, P12, P13, P21, P22, P23, P31, P32, P33.
  assert (BC : small (11 / 10) (col1 Bc) /\ small (11 / 10) (col2 Bc) /\ small (11 / 10) (col3 Bc)).
  { destruct NB as ((N11 & N12 & N13) & (N21 & N22 & N23) & (N31 & N32 & N33)).
    assert (Q : forall a b, Rabs (a - b) <= k * u -> Rabs b <= 1 -> Rabs a <= 11 / 10).
    { intros a b Ha Hb. pose proof (abs_near _ _ _ _ Ha Hb). lra. }
    repeat split; cbn [col1 col2 col3 vx vy vz]; eapply Q; eassumption. }
  destruct BC as (C1 & C2 & C3).
  assert (NM : near (30 * u) (mmul_f F A Bc) (mmul A Bc)).
  { split; [split; [|split]|split; (split; [|split])].
    - exact (fdot_near _ _ A1 C1).
    - exact (fdot_near _ _ A1 C2).
    - exact (fdot_near _ _ A1 C3).
    - exact (fdot_near _ _ A2 C1).
    - exact (fdot_near _ _ A2 C2).
    - exact (fdot_near _ _ A2 C3).
    - exact (fdot_near _ _ A3 C1).
    - exact (fdot_near _ _ A3 C2).
    - exact (fdot_near _ _ A3 C3). }
  pose proof (near_op _ _ _ NM v) as E1. pose proof (near_op _ _ _ NB v) as E2.
  pose proof (HA (mvmul B v)) as E3. rewrite HB in E3.
  pose proof (HA2 (vsub (mvmul Bc v) (mvmul B v))) as E4.
  set (w1 := vsub (mvmul (mmul_f F A Bc) v) (mvmul (mmul A Bc) v)) in *.
  set (w2 := vsub (mvmul Bc v) (mvmul B v)) in *.
  set (w3 := vsub (mvmul A (mvmul B v)) (f (mvmul B v))) in *.
  replace (vsub (mvmul (mmul_f F A Bc) v) (f (mvmul B v))) with (vadd w1 (vadd (mvmul A w2) w3)).
  - pose proof (norm_tri w1 (vadd (mvmul A w2) w3)). pose proof (norm_tri (mvmul A w2) w3). pose proof (norm_nonneg v).
    assert (0 <= u * norm v) by nra. lra.
  - unfold w1, w2, w3. generalize (f (mvmul B v)). intros [f1 f2 f3]. generalize (mmul_f F A Bc). intros P. clear.
    destruct v as [v1 v2 v3]. unfold vadd, vsub, mvmul, mmul; cbn. apply v3_eq; ring.
Qed.

(** ** The length of the increment *)
Variable d : vec3.
Let m := norm d.
Hypothesis Hm : mu <= m <= 4.
Let q := fdot F d d.
Let mh := frnd F (sqrt q).
Lemma m_pos : 0 < m. Proof. pose proof mu_pos. lra. Qed.
Lemma eta_m2 : eta64 * 1000 <= u * (m * m).
Proof. pose proof eta_mu2. pose proof mu_pos. pose proof u64_bounds. assert (mu * mu <= m * m) by nra. nra. Qed.
Lemma eta_m : eta64 * 100 <= u * m.
Proof. pose proof eta_m2. pose proof m_pos. pose proof u64_bounds. pose proof eta_pos.
  assert (u * (m * m) <= u * (4 * m)) by (apply Rmult_le_compat_l; nra). lra. Qed.
Lemma q_err : Rabs (q - m * m) <= 5 * u * (m * m).
Proof.
  pose proof (proj1 (proj2 HF) d d) as H. fold q in H.
  rewrite !(Rabs_right (_ * _)) in H by (apply Rle_ge, Rle_0_sqr).
  replace (vx d * vx d + vy d * vy d + vz d * vz d) with (m * m) in H by (unfold m; rewrite norm_sq; reflexivity).
  replace (dot d d) with (m * m) in H by apply norm_sq. pose proof eta_m2. pose proof eta_pos. lra.
Qed.
Lemma q_nonneg : 0 <= q.
Proof. pose proof q_err as H. apply Rabs_le_inv in H. pose proof u64_bounds. pose proof m_pos. nra. Qed.
Lemma mh_err : Rabs (mh - m) <= 7 * u * m.
Proof.
  pose proof q_err as H. pose proof q_nonneg as Q. pose proof m_pos as M. pose proof u64_bounds as U.
  assert (S : Rabs (sqrt q - m) <= 5 * u * m).
  { pose proof (sqrt_pos q) as SP. pose proof (sqrt_sqrt q Q) as SS.
    replace (q - m * m) with ((sqrt q - m) * (sqrt q + m)) in H by (rewrite <- SS at 3; ring).
    rewrite Rabs_mult, (Rabs_right (sqrt q + m)) in H by lra. pose proof (Rabs_pos (sqrt q - m)).
    apply Rmult_le_reg_r with m; [lra|]. nra. }
  assert (A : Rabs (sqrt q) <= m + 5 * u * m). { apply (abs_near _ _ _ _ S). rewrite Rabs_right; lra. }
  pose proof (rnd_le (sqrt q)) as R. fold mh in R. pose proof (abs_tri _ _ _ _ _ R S) as T.
  pose proof eta_m. eapply Rle_trans; [exact T|].
  assert (u * Rabs (sqrt q) <= u * (m * (1 + 1 / 1000))).
  { apply Rmult_le_compat_l; [lra|]. eapply Rle_trans; [exact A|]. nra. }
  nra.
Qed.
Lemma mh_bounds : 999 / 1000 * m <= mh <= 1001 / 1000 * m.
Proof. pose proof mh_err as H. apply Rabs_le_inv in H. pose proof u64_bounds. pose proof m_pos. split; nra. Qed.
Lemma mh_pos : 0 < mh. Proof. pose proof mh_bounds. pose proof m_pos. lra. Qed.
Lemma mh_near : Rabs (mh - m) <= 28 * u.
Proof. pose proof mh_err. pose proof u64_bounds. pose proof m_pos. nra. Qed.

(** Quotients by the computed length and by its square. *)
Lemma quot x y y' k : 0 < y -> 0 < y' -> Rabs x <= y -> Rabs (y' - y) <= k * u * y -> 0 <= k <= 100 ->
  Rabs (x / y' - x / y) <= (k + 1) * u /\ Rabs (x / y') <= 11 / 10 /\ Rabs (x / y) <= 1.
Proof.
  intros P P' Hx H Hk. pose proof u64_bounds as U.
  assert (X1 : Rabs (x / y) <= 1).
  { unfold Rdiv. rewrite Rabs_mult, (Rabs_right (/ y)) by (apply Rle_ge, Rlt_le, Rinv_0_lt_compat; lra).
    apply Rmult_le_reg_r with y; [lra|]. rewrite Rmult_assoc, Rinv_l, Rmult_1_r by lra. lra. }
  assert (D : Rabs (x / y' - x / y) <= (k + 1) * u).
  { replace (x / y' - x / y) with (x * (y - y') / (y * y')) by (field; lra).
    unfold Rdiv. rewrite !Rabs_mult, (Rabs_right (/ _)) by (apply Rle_ge, Rlt_le, Rinv_0_lt_compat; nra).
    rewrite (Rabs_minus_sym y y').
    assert (Y : y * (1 - k * u) <= y'). { apply Rabs_le_inv in H. nra. }
    assert (KU : k * u <= 1 / 10000000000000) by nra. assert (KU0 : 0 <= k * u) by nra.
    apply Rmult_le_reg_r with (y * y'); [nra|]. rewrite Rmult_assoc, Rinv_l, Rmult_1_r by nra.
    pose proof (Rabs_pos x). pose proof (Rabs_pos (y' - y)).
    apply Rle_trans with (y * (k * u * y)); [apply Rmult_le_compat; lra|].
    assert (k * y <= (k + 1) * y'). { apply Rle_trans with ((k + 1) * (y * (1 - k * u))); [nra|]. apply Rmult_le_compat_l; lra. }
    replace (y * (k * u * y)) with (u * y * (k * y)) by ring. replace ((k + 1) * u * (y * y')) with (u * y * ((k + 1) * y')) by ring.
    apply Rmult_le_compat_l; [nra|lra]. }
  split; [exact D|split; [|exact X1]]. pose proof (abs_near _ _ _ _ D X1). nra.
Qed.
Lemma quot1 x : Rabs x <= m -> Rabs (x / mh - x / m) <= 8 * u /\ Rabs (x / mh) <= 11 / 10 /\ Rabs (x / m) <= 1.
Proof.
  intros. replace 8 with (7 + 1) by ring. apply quot; try lra; try apply m_pos; try apply mh_pos. apply mh_err.
Qed.
Let n2 := frnd F (mh * mh).
Lemma n2_err : Rabs (n2 - m * m) <= 16 * u * (m * m).
Proof.
  pose proof mh_err as H. pose proof m_pos. pose proof u64_bounds. pose proof mh_bounds. pose proof eta_m2.
  assert (A : Rabs (mh * mh - m * m) <= (14 + 1 / 10) * u * (m * m)).
  { replace (mh * mh - m * m) with ((mh - m) * (mh + m)) by ring. rewrite Rabs_mult, (Rabs_right (mh + m)) by lra.
    apply Rle_trans with (7 * u * m * (2001 / 1000 * m)); [|nra]. apply Rmult_le_compat; try apply Rabs_pos; lra. }
  pose proof (rnd_le (mh * mh)) as R. fold n2 in R. rewrite (Rabs_right (mh * mh)) in R by nra.
  pose proof (abs_tri _ _ _ _ _ R A). assert (mh * mh <= 11 / 10 * (m * m)) by nra. nra.
Qed.
Lemma n2_pos : 0 < n2.
Proof. pose proof n2_err as H. apply Rabs_le_inv in H. pose proof u64_bounds. pose proof m_pos. assert (0 < m * m) by nra. nra. Qed.
Lemma quot2 x y : Rabs x <= m -> Rabs y <= m ->
  Rabs (x * y / n2 - x * y / (m * m)) <= 17 * u /\ Rabs (x * y / n2) <= 11 / 10 /\ Rabs (x * y / (m * m)) <= 1.
Proof.
  intros. pose proof m_pos. replace 17 with (16 + 1) by ring. apply quot; try lra; try apply n2_pos; try nra.
  - rewrite Rabs_mult. apply Rmult_le_compat; try apply Rabs_pos; lra.
  - apply n2_err.
Qed.

(** ** The two coefficients times entries *)
Lemma fsin_err : Rabs (fsin F mh - sin m) <= 30 * u.
Proof.
  replace (30 * u) with (2 * u + 28 * u) by ring. eapply abs_tri; [apply HF|].
  eapply Rle_trans; [apply sin_lip|apply mh_near].
Qed.
Lemma fcos_err : Rabs (fcos F mh - cos m) <= 30 * u.
Proof.
  replace (30 * u) with (2 * u + 28 * u) by ring. eapply abs_tri; [apply HF|].
  eapply Rle_trans; [apply cos_lip|apply mh_near].
Qed.
Let sh := frnd F (fsin F mh / mh).
Lemma term1 x : Rabs x <= m -> Rabs (frnd F (sh * x) - sin m / m * x) <= 45 * u /\ Rabs (sin m / m * x) <= 1.
Proof.
  intros Hx. pose proof m_pos. pose proof mh_pos. pose proof u64_bounds as U. destruct (quot1 x Hx) as (Q1 & Q2 & Q3).
  assert (S1 : Rabs (sin m) <= 1) by (apply Rabs_le, SIN_bound).
  assert (B : Rabs (sin m / m * x) <= 1).
  { replace (sin m / m * x) with (sin m * (x / m)) by (field; lra). rewrite Rabs_mult.
    replace 1 with (1 * 1) by ring. apply Rmult_le_compat; try apply Rabs_pos; lra. }
  split; [|exact B].
  assert (E : Rabs (fsin F mh / mh * x - sin m / m * x) <= 41 * u).
  { replace (fsin F mh / mh * x) with (fsin F mh * (x / mh)) by (field; lra).
    replace (sin m / m * x) with (sin m * (x / m)) by (field; lra).
    replace (41 * u) with (30 * u * (11 / 10) + 1 * (8 * u)) by field. apply abs_prod; auto. apply fsin_err. }
  replace (45 * u) with ((43 + 1 + 1) * u) by ring. apply rnd_err; [|exact B|lra].
  replace (43 * u) with ((41 + 1 + 1) * u) by ring. apply rnd_mul; auto; lra.
Qed.
Let ch := frnd F (frnd F (1 - fcos F mh) / n2).
Lemma term2 x y : Rabs x <= m -> Rabs y <= m ->
  Rabs (frnd F (ch * x) * y - (1 - cos m) / (m * m) * x * y) <= 80 * u /\ Rabs ((1 - cos m) / (m * m) * x * y) <= 2.
Proof.
  intros Hx Hy. pose proof m_pos. pose proof n2_pos. pose proof u64_bounds as U. destruct (quot2 x y Hx Hy) as (Q1 & Q2 & Q3).
  assert (C1 : Rabs (1 - cos m) <= 2) by (apply Rabs_le; pose proof (COS_bound m); lra).
  assert (B : Rabs ((1 - cos m) / (m * m) * x * y) <= 2).
  { replace ((1 - cos m) / (m * m) * x * y) with ((1 - cos m) * (x * y / (m * m))) by (field; lra). rewrite Rabs_mult.
    replace 2 with (2 * 1) by ring. apply Rmult_le_compat; try apply Rabs_pos; lra. }
  split; [|exact B].
  assert (T : Rabs (frnd F (1 - fcos F mh) - (1 - cos m)) <= (30 + 2 + 1) * u).
  { apply rnd_err; [|exact C1|lra]. replace (1 - fcos F mh - (1 - cos m)) with (- (fcos F mh - cos m)) by ring.
    rewrite Rabs_Ropp. apply fcos_err. }
  assert (E : Rabs (frnd F (1 - fcos F mh) / n2 * (x * y) - (1 - cos m) / (m * m) * x * y) <= 71 * u).
  { replace (frnd F (1 - fcos F mh) / n2 * (x * y)) with (frnd F (1 - fcos F mh) * (x * y / n2)) by (field; lra).
    replace ((1 - cos m) / (m * m) * x * y) with ((1 - cos m) * (x * y / (m * m))) by (field; lra).
    eapply Rle_trans; [eapply abs_prod; eauto|]. lra. }
  assert (E2 : Rabs (ch * (x * y) - (1 - cos m) / (m * m) * x * y) <= (71 + 2 + 1) * u).
  { apply rnd_mul; auto; try lra. rewrite Rabs_mult. replace 16 with (4 * 4) by ring. apply Rmult_le_compat; try apply Rabs_pos; lra. }
  eapply Rle_trans; [apply (rnd_mul _ _ _ (71 + 2 + 1) 2)|]; auto; try lra.
  now rewrite (Rmult_assoc ch x y).
Qed.

(** ** The rotation matrix of one update *)
Let k := (1 - cos m) / (m * m).
Definition dot2 (r c : vec3) : R := k * vx r * vx c + k * vy r * vy c + k * vz r * vz c.
Lemma term3 r c : small m r -> small m c ->
  Rabs (fdot F (V3 (frnd F (ch * vx r)) (frnd F (ch * vy r)) (frnd F (ch * vz r))) c - dot2 r c) <= 270 * u /\
  Rabs (dot2 r c) <= 6.
Proof.
  intros (R1 & R2 & R3) (C1 & C2 & C3). pose proof u64_bounds as U. pose proof eta_u as E. pose proof eta_pos as E0.
  destruct (term2 _ _ R1 C1) as (X1 & X2), (term2 _ _ R2 C2) as (Y1 & Y2), (term2 _ _ R3 C3) as (Z1 & Z2).
  fold k in X1, X2, Y1, Y2, Z1, Z2.
  pose proof (abs_near _ _ _ _ X1 X2) as X3. pose proof (abs_near _ _ _ _ Y1 Y2) as Y3. pose proof (abs_near _ _ _ _ Z1 Z2) as Z3.
  pose proof (proj1 (proj2 HF) (V3 (frnd F (ch * vx r)) (frnd F (ch * vy r)) (frnd F (ch * vz r))) c) as D.
  unfold dot in D. cbn [vx vy vz] in D. unfold dot2.
  set (f := fdot F _ c) in *. clearbody f.
  set (a1 := frnd F (ch * vx r) * vx c) in *. set (a2 := frnd F (ch * vy r) * vy c) in *. set (a3 := frnd F (ch * vz r) * vz c) in *.
  set (b1 := k * vx r * vx c) in *. set (b2 := k * vy r * vy c) in *. set (b3 := k * vz r * vz c) in *.
  clearbody a1 a2 a3 b1 b2 b3. split.
  - assert (D' : Rabs (f - (a1 + a2 + a3)) <= 30 * u).
    { eapply Rle_trans; [exact D|].
      assert (4 * u * (Rabs a1 + Rabs a2 + Rabs a3) <= 4 * u * (6 + 240 * u)) by (apply Rmult_le_compat_l; lra).
      assert (u * u <= u * (1 / 1000000)) by (apply Rmult_le_compat_l; lra). lra. }
    apply Rabs_le_inv in D'. apply Rabs_le_inv in X1. apply Rabs_le_inv in Y1. apply Rabs_le_inv in Z1. apply Rabs_le. lra.
  - apply Rabs_le_inv in X2. apply Rabs_le_inv in Y2. apply Rabs_le_inv in Z2. apply Rabs_le. lra.
Qed.
Lemma term4 t x r c : Rabs t <= 1 -> Rabs x <= m -> small m r -> small m c ->
  Rabs (frnd F (frnd F (t + frnd F (sh * x)) + fdot F (V3 (frnd F (ch * vx r)) (frnd F (ch * vy r)) (frnd F (ch * vz r))) c)
        - (t + sin m / m * x + dot2 r c)) <= 330 * u.
Proof.
  intros Ht Hx Hr Hc. destruct (term1 x Hx) as (A1 & A2), (term3 r c Hr Hc) as (B1 & B2).
  assert (A3 : Rabs (t + sin m / m * x) <= 2) by (eapply Rle_trans; [apply Rabs_triang|lra]).
  assert (A4 : Rabs (frnd F (t + frnd F (sh * x)) - (t + sin m / m * x)) <= (45 + 2 + 1) * u).
  { apply rnd_err; [|exact A3|lra]. replace (t + frnd F (sh * x) - (t + sin m / m * x)) with (frnd F (sh * x) - sin m / m * x) by ring.
    exact A1. }
  assert (A5 : Rabs (t + sin m / m * x + dot2 r c) <= 8) by (eapply Rle_trans; [apply Rabs_triang|lra]).
  eapply Rle_trans; [apply (rnd_err _ _ 318 8)|]; auto; try lra.
  - match goal with |- Rabs (?a + ?b - (?c + ?e)) <= _ => replace (a + b - (c + e)) with ((a - c) + (b - e)) by ring end.
    eapply Rle_trans; [apply Rabs_triang|]. lra.
  - pose proof u64_bounds. lra.
Qed.


Let X := snd (skewSymmetric d).
Definition Bh : mat3 := madd_f F (madd_f F m3id (mscale_f F sh X)) (mmul_f F (mscale_f F ch X) X).
Definition Be : mat3 := madd (madd m3id (mscale (sin m / m) X)) (mmul (mscale k X) X).
Lemma abs_opp_le x b : Rabs x <= b -> Rabs (- x) <= b. Proof. now rewrite Rabs_Ropp. Qed.
Lemma Bh_near : near (330 * u) Bh Be.
Proof.
  destruct (comp_le d) as (D1 & D2 & D3). pose proof m_pos as M. fold m in D1, D2, D3.
  assert (Z : Rabs 0 <= m) by (rewrite Rabs_R0; lra).
  assert (O : Rabs 1 <= 1) by (rewrite Rabs_R1; lra). assert (ZO : Rabs 0 <= 1) by (rewrite Rabs_R0; lra).
  assert (X1 := abs_opp_le _ _ D1). assert (X2 := abs_opp_le _ _ D2). assert (X3 := abs_opp_le _ _ D3).
  unfold Bh, Be. 
  assert (SM : small m (row1 X) /\ small m (row2 X) /\ small m (row3 X) /\ small m (col1 X) /\ small m (col2 X) /\ small m (col3 X)).
  { unfold X. cbn. unfold small; cbn. repeat split; assumption. }
  destruct SM as (R1 & R2 & R3 & C1 & C2 & C3).
  split; [split; [|split]|split; (split; [|split])].
  - exact (term4 1 (m11 X) (row1 X) (col1 X) O (proj1 R1) R1 C1).
  - exact (term4 0 (m12 X) (row1 X) (col2 X) ZO (proj1 (proj2 R1)) R1 C2).
  - exact (term4 0 (m13 X) (row1 X) (col3 X) ZO (proj2 (proj2 R1)) R1 C3).
  - exact (term4 0 (m21 X) (row2 X) (col1 X) ZO (proj1 R2) R2 C1).
  - exact (term4 1 (m22 X) (row2 X) (col2 X) O (proj1 (proj2 R2)) R2 C2).
  - exact (term4 0 (m23 X) (row2 X) (col3 X) ZO (proj2 (proj2 R2)) R2 C3).
  - exact (term4 0 (m31 X) (row3 X) (col1 X) ZO (proj1 R3) R3 C1).
  - exact (term4 0 (m32 X) (row3 X) (col2 X) ZO (proj1 (proj2 R3)) R3 C2).
  - exact (term4 1 (m33 X) (row3 X) (col3 X) O (proj2 (proj2 R3)) R3 C3).
Qed.

(** The computed update is the computed product with [Bh]. *)
Lemma update_f_eq A : updateAttitude_f F A d = Ret (true, mmul_f F A Bh).
Proof.
  unfold updateAttitude_f. fold q. unfold sqrtc. destruct (Rlt_dec q 0) as [L|_]; [pose proof q_nonneg; lra|]. cbn [bind].
  fold mh. cbn [skewSymmetric negb]. rewrite Rdivc_ok by (pose proof mh_pos; lra). cbn [bind].
  fold n2. rewrite Rdivc_ok by (pose proof n2_pos; lra). reflexivity.
Qed.
Lemma d_nonzero : d <> v3zero.
Proof. intros E. pose proof m_pos as P. unfold m in P. rewrite E, norm_zero in P. lra. Qed.
Lemma Be_eq : Be = axis_matrix (vscale (/ m) d) m.
Proof.
  unfold Be, k, X, axis_matrix. pose proof m_pos as P. pose proof (unit_axis d d_nonzero) as N. fold m in N.
  rewrite <- (skew_exp _ m) by (auto; lra).
  replace (vscale m (vscale (/ m) d)) with d; [reflexivity|]. clear -P. destruct d. unfold vscale; cbn. apply v3_eq; field; lra.
Qed.
Lemma Be_rotvec v : mvmul Be v = rotvec d v.
Proof. rewrite Be_eq. apply axis_matrix_rotate. Qed.
Lemma Be_norm v : norm (mvmul Be v) = norm v.
Proof. rewrite Be_eq. apply norm_rotated. apply axis_matrix_rotation. apply (unit_axis d d_nonzero). Qed.

(** ** One update *)
Lemma step_f e A f : (forall v, norm (f v) = norm v) -> close_to e A f -> 0 <= e <= 1 ->
  close_to (e + 2100 * u) (mmul_f F A Bh) (fun v => f (rotvec d v)).
Proof.
  intros Hf HA He v. rewrite <- Be_rotvec. pose proof u64_bounds.
  eapply Rle_trans; [apply (prod_close e 330 A f Bh Be Hf HA He Be_norm Bh_near ltac:(lra))|].
  apply Rmult_le_compat_r; [apply norm_nonneg|lra].
Qed.
End Float.

(** ** A chain of updates *)
Definition in_range (d : vec3) : Prop := bpow radix2 (-480) <= norm d <= 4.
Lemma chain F : float_ok F -> forall l e A f, (forall v, norm (f v) = norm v) -> close_to e A f -> 0 <= e ->
  (forall d, In d l -> in_range d) -> e + 2100 * u64 * INR (length l) <= 1 ->
  exists A', attitude_f F A l = Ret A' /\
    close_to (e + 2100 * u64 * INR (length l)) A' (fun v => f (fold_right rotvec v l)).
Proof.
  intros HF. induction l as [|d l IH]; intros e A f Hf HA He Hl Hn.
  - exists A. split; [reflexivity|]. intros v. cbn. rewrite Rmult_0_r, Rplus_0_r. apply HA.
  - cbn [length] in *. rewrite S_INR in *. pose proof u64_bounds. pose proof (pos_INR (length l)).
    assert (Hd : mu <= norm d <= 4) by (apply Hl; now left).
    assert (NI : 0 <= u64 * INR (length l)) by nra.
    pose proof (step_f F HF d Hd e A f Hf HA ltac:(nra)) as HS.
    destruct (IH (e + 2100 * u64) (mmul_f F A (Bh F d)) (fun v => f (rotvec d v))) as (A' & EA & CA); auto; try lra.
    + intros v. rewrite Hf. rewrite <- (Be_rotvec d Hd). now apply Be_norm.
    + intros d' Hd'. apply Hl. now right.
    + exists A'. split.
      * cbn. rewrite (update_f_eq F HF d Hd). cbn. exact EA.
      * intros v. cbn [fold_right]. eapply Rle_trans; [apply CA|]. apply Rmult_le_compat_r; [apply norm_nonneg|lra].
Qed.
