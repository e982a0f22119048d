(** Lemmas on 3-vectors, 3x3 matrices, rotations and checked arithmetic. *)
From Coq Require Import Reals List Lra Lia Psatz.
From Verif Require Import Base BaseVec SpecRot.
Import ListNotations.
Open Scope R_scope.

Ltac unvec :=
  unfold mvmul, mmul, mtr, madd, msub, mneg, mscale, mdet, madj, vadd, vsub, vneg,
    vscale, dot, cross, m3id, m3zero, v3zero, row1, row2, row3, col1, col2, col3, ex, ey, ez in *;
  cbn [vx vy vz m11 m12 m13 m21 m22 m23 m31 m32 m33] in *.

Lemma v3_eq : forall a b c a' b' c', a = a' -> b = b' -> c = c' -> V3 a b c = V3 a' b' c'.
Proof. intros; subst; reflexivity. Qed.
Lemma m3_eq : forall a b c d e f g h i a' b' c' d' e' f' g' h' i',
  a = a' -> b = b' -> c = c' -> d = d' -> e = e' -> f = f' -> g = g' -> h = h' -> i = i' ->
  M3 a b c d e f g h i = M3 a' b' c' d' e' f' g' h' i'.
Proof. intros; subst; reflexivity. Qed.
Lemma v3_eta : forall u, u = V3 (vx u) (vy u) (vz u). Proof. now destruct u. Qed.
Lemma v3_ext : forall u v, vx u = vx v -> vy u = vy v -> vz u = vz v -> u = v.
Proof. intros [] [] ; cbn; intros; subst; reflexivity. Qed.
Lemma m3_eta : forall A, A = M3 (m11 A) (m12 A) (m13 A) (m21 A) (m22 A) (m23 A) (m31 A) (m32 A) (m33 A).
Proof. now destruct A. Qed.

Ltac vec_ring :=
  intros;
  repeat match goal with v : vec3 |- _ => destruct v | v : mat3 |- _ => destruct v end;
  unvec; try (apply v3_eq || apply m3_eq); try ring.

Lemma mmul_assoc A B C : mmul (mmul A B) C = mmul A (mmul B C). Proof. vec_ring. Qed.
Lemma mmul_id_l A : mmul m3id A = A. Proof. vec_ring. Qed.
Lemma mmul_id_r A : mmul A m3id = A. Proof. vec_ring. Qed.
Lemma mtr_mmul A B : mtr (mmul A B) = mmul (mtr B) (mtr A). Proof. vec_ring. Qed.
Lemma mtr_mtr A : mtr (mtr A) = A. Proof. vec_ring. Qed.
Lemma mtr_id : mtr m3id = m3id. Proof. vec_ring. Qed.
Lemma mdet_mmul A B : mdet (mmul A B) = mdet A * mdet B. Proof. vec_ring. Qed.
Lemma mdet_mtr A : mdet (mtr A) = mdet A. Proof. vec_ring. Qed.
Lemma mdet_id : mdet m3id = 1. Proof. vec_ring. Qed.
Lemma mvmul_mmul A B v : mvmul (mmul A B) v = mvmul A (mvmul B v). Proof. vec_ring. Qed.
Lemma mvmul_id v : mvmul m3id v = v. Proof. vec_ring. Qed.
Lemma madj_l A : mmul (madj A) A = mscale (mdet A) m3id. Proof. vec_ring. Qed.
Lemma madj_r A : mmul A (madj A) = mscale (mdet A) m3id. Proof. vec_ring. Qed.
Lemma mscale_1 A : mscale 1 A = A. Proof. vec_ring. Qed.
Lemma mscale_mmul_l k A B : mmul (mscale k A) B = mscale k (mmul A B). Proof. vec_ring. Qed.
Lemma mscale_mmul_r k A B : mmul A (mscale k B) = mscale k (mmul A B). Proof. vec_ring. Qed.
Lemma mscale_mscale k l A : mscale k (mscale l A) = mscale (k * l) A. Proof. vec_ring. Qed.
Lemma mvmul_vadd A u v : mvmul A (vadd u v) = vadd (mvmul A u) (mvmul A v). Proof. vec_ring. Qed.
Lemma mvmul_vscale A k v : mvmul A (vscale k v) = vscale k (mvmul A v). Proof. vec_ring. Qed.
Lemma dot_comm u v : dot u v = dot v u. Proof. vec_ring. Qed.
Lemma dot_nonneg u : 0 <= dot u u. Proof. destruct u; unvec; nra. Qed.
Lemma dot_pos u : u <> v3zero -> 0 < dot u u.
Proof.
  destruct u as [a b c]; intros H; unvec.
  destruct (Req_dec a 0) as [->|]; [|nra].
  destruct (Req_dec b 0) as [->|]; [|nra].
  destruct (Req_dec c 0) as [->|]; [exfalso; now apply H|nra].
Qed.
Lemma dot_zero u : dot u u = 0 -> u = v3zero.
Proof.
  intros H. destruct u as [a b c]; unvec.
  assert (a = 0) by nra. assert (b = 0) by nra. assert (c = 0) by nra. now subst.
Qed.
Lemma norm_nonneg u : 0 <= norm u. Proof. apply sqrt_pos. Qed.
Lemma norm_sq u : norm u * norm u = dot u u.
Proof. apply sqrt_def, dot_nonneg. Qed.
Lemma norm_pos u : u <> v3zero -> 0 < norm u.
Proof. intros H. apply sqrt_lt_R0, dot_pos, H. Qed.
Lemma norm_zero : norm v3zero = 0.
Proof. unfold norm, v3zero, dot; cbn. replace (0*0+0*0+0*0) with 0 by ring. apply sqrt_0. Qed.
Lemma norm_scale k u : norm (vscale k u) = Rabs k * norm u.
Proof.
  unfold norm. replace (dot (vscale k u) (vscale k u)) with (Rsqr k * dot u u) by (unfold Rsqr; vec_ring).
  rewrite sqrt_mult_alt by apply Rle_0_sqr. now rewrite sqrt_Rsqr_abs.
Qed.

(** The algebraic form of [is_rotation]. *)
Lemma orth_det_adj A : mmul A (mtr A) = m3id -> mdet A = 1 -> mtr A = madj A.
Proof.
  intros H D.
  transitivity (mmul (mmul (madj A) A) (mtr A)).
  - now rewrite madj_l, D, mscale_1, mmul_id_l.
  - now rewrite mmul_assoc, H, mmul_id_r.
Qed.

Lemma rotation_of_matrix A :
  mmul A (mtr A) = m3id -> mdet A = 1 -> is_rotation A.
Proof.
  intros H D. pose proof (orth_det_adj A H D) as Hadj.
  assert (H2 : mmul (mtr A) A = m3id) by (rewrite Hadj, madj_l, D; apply mscale_1).
  split; intros u v.
  - replace (dot (mvmul A u) (mvmul A v)) with (dot u (mvmul (mmul (mtr A) A) v)) by vec_ring.
    now rewrite H2, mvmul_id.
  - replace (cross (mvmul A u) (mvmul A v)) with (mvmul (mtr (madj A)) (cross u v)) by vec_ring.
    now rewrite <- Hadj, mtr_mtr.
Qed.

Lemma rotation_matrix A :
  is_rotation A -> mmul A (mtr A) = m3id /\ mmul (mtr A) A = m3id /\ mdet A = 1.
Proof.
  intros [Hd Hc].
  assert (Hadj : mtr (madj A) = A).
  { pose proof (Hc ex ey) as H1. pose proof (Hc ey ez) as H2. pose proof (Hc ez ex) as H3.
    destruct A; unvec. inversion H1; inversion H2; inversion H3. apply m3_eq; lra. }
  assert (HT : mmul (mtr A) A = m3id).
  { pose proof (Hd ex ex) as H11. pose proof (Hd ex ey) as H12. pose proof (Hd ex ez) as H13.
    pose proof (Hd ey ey) as H22. pose proof (Hd ey ez) as H23. pose proof (Hd ez ez) as H33.
    destruct A; unvec. apply m3_eq; lra. }
  assert (HD : mdet A = 1).
  { pose proof (madj_l A) as H.
    assert (E : madj A = mtr A) by (rewrite <- Hadj at 2; now rewrite mtr_mtr).
    rewrite E, HT in H. unfold mscale, m3id in H; cbn in H. injection H; intros. lra. }
  repeat split; auto.
  assert (E : madj A = mtr A) by (rewrite <- Hadj at 2; now rewrite mtr_mtr).
  rewrite <- E, madj_r, HD. apply mscale_1.
Qed.

Lemma rotation_iff A :
  is_rotation A <-> (mmul A (mtr A) = m3id /\ mdet A = 1).
Proof.
  split; [intros H; apply rotation_matrix in H; tauto|intros []; now apply rotation_of_matrix].
Qed.

Lemma rotation_mmul A B : is_rotation A -> is_rotation B -> is_rotation (mmul A B).
Proof.
  intros [H1 H2] [H3 H4]. split; intros; rewrite ?mvmul_mmul.
  - now rewrite H1.
  - now rewrite H2, H4.
Qed.
Lemma rotation_mtr A : is_rotation A -> is_rotation (mtr A).
Proof.
  intros H; apply rotation_matrix in H as (H1 & H2 & H3).
  apply rotation_of_matrix; [now rewrite mtr_mtr|now rewrite mdet_mtr].
Qed.
Lemma rotation_id : is_rotation m3id.
Proof. split; intros; now rewrite !mvmul_id. Qed.

(** Two matrices that act alike are equal. *)
Lemma mat3_ext A B : (forall v, mvmul A v = mvmul B v) -> A = B.
Proof.
  intros H. pose proof (H ex) as H1. pose proof (H ey) as H2. pose proof (H ez) as H3.
  destruct A, B; unvec. inversion H1; inversion H2; inversion H3. apply m3_eq; lra.
Qed.

(** Checked arithmetic. *)
Lemma Rdivc_ok x y : y <> 0 -> Rdivc x y = Ret (x / y).
Proof. intros H; unfold Rdivc. now destruct (Req_EM_T y 0). Qed.
Lemma Rdivc_0 x : Rdivc x 0 = NonFinite.
Proof. unfold Rdivc. now destruct (Req_EM_T 0 0). Qed.
Lemma sqrtc_ok x : 0 <= x -> sqrtc x = Ret (sqrt x).
Proof. intros H; unfold sqrtc. destruct (Rlt_dec x 0); [lra|reflexivity]. Qed.
Lemma sqrtc_neg x : x < 0 -> sqrtc x = NonFinite.
Proof. intros H; unfold sqrtc. destruct (Rlt_dec x 0); [reflexivity|lra]. Qed.
Lemma asinc_ok x : -1 <= x <= 1 -> asinc x = Ret (asin x).
Proof.
  intros H; unfold asinc. destruct (Rlt_dec x (-1)); [lra|].
  destruct (Rlt_dec 1 x); [lra|reflexivity].
Qed.
Lemma asinc_out x : x < -1 \/ 1 < x -> asinc x = NonFinite.
Proof.
  intros H; unfold asinc. destruct (Rlt_dec x (-1)); [reflexivity|].
  destruct (Rlt_dec 1 x); [reflexivity|lra].
Qed.
Lemma Rltb'_true x y : x < y -> Rltb' x y = true.
Proof. unfold Rltb'; destruct (Rlt_dec x y); tauto. Qed.
Lemma Rltb'_false x y : y <= x -> Rltb' x y = false.
Proof. unfold Rltb'; destruct (Rlt_dec x y); [lra|tauto]. Qed.
Lemma Rltb'_iff x y : Rltb' x y = true <-> x < y.
Proof. unfold Rltb'; destruct (Rlt_dec x y); split; congruence || tauto. Qed.
Lemma Rltb'_niff x y : Rltb' x y = false <-> y <= x.
Proof. unfold Rltb'; destruct (Rlt_dec x y); split; intros; try congruence; lra. Qed.
Lemma Rleb'_iff x y : Rleb' x y = true <-> x <= y.
Proof. unfold Rleb'; destruct (Rle_dec x y); split; congruence || tauto. Qed.
Lemma Reqb'_iff x y : Reqb' x y = true <-> x = y.
Proof. unfold Reqb'; destruct (Req_EM_T x y); split; congruence || tauto. Qed.

(** A rotation about an axis acts as a matrix. *)
Definition axis_matrix (n : vec3) (t : R) : mat3 :=
  let c := cos t in let s := sin t in let k := 1 - cos t in
  M3 (c + k * vx n * vx n) (k * vx n * vy n - s * vz n) (k * vx n * vz n + s * vy n)
     (k * vy n * vx n + s * vz n) (c + k * vy n * vy n) (k * vy n * vz n - s * vx n)
     (k * vz n * vx n - s * vy n) (k * vz n * vy n + s * vx n) (c + k * vz n * vz n).
Lemma axis_matrix_rotate n t v : mvmul (axis_matrix n t) v = rotate n t v.
Proof. destruct n, v; unfold axis_matrix, rotate; unvec; apply v3_eq; ring. Qed.

Lemma cs1 t : cos t * cos t + sin t * sin t = 1.
Proof. pose proof (sin2_cos2 t) as H; unfold Rsqr in H; lra. Qed.
Lemma ss1 t : sin t * sin t = 1 - cos t * cos t.
Proof. pose proof (cs1 t); lra. Qed.

Lemma axis_matrix_id n : axis_matrix n 0 = m3id.
Proof. unfold axis_matrix, m3id. rewrite cos_0, sin_0. apply m3_eq; ring. Qed.

Lemma axis_matrix_add n s t : dot n n = 1 ->
  mmul (axis_matrix n s) (axis_matrix n t) = axis_matrix n (s + t).
Proof.
  intros Hn. destruct n as [a b c]; unfold axis_matrix; unvec.
  rewrite cos_plus, sin_plus.
  assert (Hc : c * c = 1 - a * a - b * b) by lra.
  set (C := cos s); set (S := sin s); set (C' := cos t); set (S' := sin t).
  clearbody C S C' S'.
  apply m3_eq; ring [Hc].
Qed.
Lemma axis_matrix_tr n t : mtr (axis_matrix n t) = axis_matrix n (- t).
Proof.
  unfold axis_matrix, mtr; cbn. rewrite cos_neg, sin_neg. apply m3_eq; ring.
Qed.
Lemma axis_matrix_rotation n t : dot n n = 1 -> is_rotation (axis_matrix n t).
Proof.
  intros Hn. apply rotation_of_matrix.
  - rewrite axis_matrix_tr, axis_matrix_add by auto.
    replace (t + - t) with 0 by ring. apply axis_matrix_id.
  - destruct n as [a b c]; unfold axis_matrix; unvec.
    assert (Hc : c * c = 1 - a * a - b * b) by lra.
    pose proof (ss1 t) as Hs.
    set (C := cos t) in *; set (S := sin t) in *. clearbody C S.
    ring [Hc Hs].
Qed.

Lemma asin_lt x y : -1 <= x -> x < y -> y <= 1 -> asin x < asin y.
Proof.
  intros. destruct (Rlt_dec (asin x) (asin y)) as [|N]; auto.
  exfalso. assert (sin (asin y) <= sin (asin x)).
  { pose proof (asin_bound x). pose proof (asin_bound y). apply sin_incr_1; lra. }
  rewrite !sin_asin in *; lra.
Qed.
