(** Lemmas about atan2 and fmod. *)
From Coq Require Import Reals Lra Lia ZArith.
From Flocq Require Import Core.Raux.
From Verif Require Import Base BaseVec ProofVec.
Open Scope R_scope.

Lemma atan2_pos y x : 0 < x -> atan2 y x = atan (y / x).
Proof. intros. unfold atan2. destruct (Rlt_dec 0 x); [auto|lra]. Qed.

Lemma atan2_pos_bound y x : 0 < x -> - (PI/2) < atan2 y x < PI/2.
Proof. intros. rewrite atan2_pos by auto. pose proof (atan_bound (y / x)). lra. Qed.

Lemma atan_pos x : 0 < x -> 0 < atan x.
Proof. intros. rewrite <- atan_0. now apply atan_increasing. Qed.
Lemma atan_neg x : x < 0 -> atan x < 0.
Proof. intros. rewrite <- atan_0. now apply atan_increasing. Qed.

Lemma atan2_range y x : - PI < atan2 y x <= PI.
Proof.
  pose proof PI_RGT_0. pose proof (atan_bound (y / x)). unfold atan2.
  destruct (Rlt_dec 0 x); [lra|]. destruct (Rlt_dec x 0).
  - destruct (Rlt_dec y 0).
    + assert (0 < y / x).
      { replace (y / x) with ((- y) / (- x)) by (field; lra). apply Rdiv_lt_0_compat; lra. }
      pose proof (atan_pos _ H1). lra.
    + assert (y / x <= 0).
      { replace (y / x) with (- (y / (- x))) by (field; lra).
        assert (0 <= y / - x); [|lra]. apply Rmult_le_pos; [lra|]. left. apply Rinv_0_lt_compat; lra. }
      assert (atan (y / x) <= 0).
      { destruct (Req_dec (y / x) 0) as [->|]; [rewrite atan_0; lra|]. left. apply atan_neg. lra. }
      lra.
  - destruct (Rlt_dec 0 y); [lra|]. destruct (Rlt_dec y 0); lra.
Qed.

Lemma cos_atan x : cos (atan x) = 1 / sqrt (1 + x * x).
Proof.
  assert (B := atan_bound x). assert (C : 0 < cos (atan x)) by (apply cos_gt_0; lra).
  assert (P : 0 < 1 + x * x) by nra.
  pose proof (sqrt_lt_R0 _ P). pose proof (sqrt_sqrt (1 + x * x) ltac:(lra)).
  pose proof (cs1 (atan x)). pose proof (tan_atan x) as T. unfold tan in T.
  assert (S : sin (atan x) = x * cos (atan x)) by (rewrite <- T at 2; field; lra).
  rewrite S in *.
  set (c := cos (atan x)) in *. set (q := sqrt (1 + x * x)) in *.
  assert ((c * q) * (c * q) = 1) by nra.
  assert (0 < c * q) by (apply Rmult_lt_0_compat; auto).
  assert (c * q = 1) by nra. apply Rmult_eq_reg_r with q; [|lra]. rewrite H4. field. lra.
Qed.
Lemma sin_atan x : sin (atan x) = x / sqrt (1 + x * x).
Proof.
  pose proof (cos_atan x). pose proof (tan_atan x) as T. unfold tan in T.
  assert (P : 0 < 1 + x * x) by nra. pose proof (sqrt_lt_R0 _ P).
  assert (cos (atan x) <> 0). { rewrite H. apply Rgt_not_eq. apply Rdiv_lt_0_compat; lra. }
  replace (sin (atan x)) with (x * cos (atan x)) by (rewrite <- T at 1; field; auto).
  rewrite H. field. lra.
Qed.

Lemma hyp_atan x y : x <> 0 -> sqrt (1 + y / x * (y / x)) = sqrt (x * x + y * y) / Rabs x.
Proof.
  intros. rewrite <- sqrt_Rsqr_abs, <- sqrt_div_alt by (unfold Rsqr; nra). f_equal. unfold Rsqr. now field.
Qed.

Lemma atan2_polar y x : (x <> 0 \/ y <> 0) ->
  cos (atan2 y x) = x / sqrt (x * x + y * y) /\ sin (atan2 y x) = y / sqrt (x * x + y * y).
Proof.
  intros N. assert (P : 0 < x * x + y * y) by (destruct N; nra).
  pose proof (sqrt_lt_R0 _ P) as Q. unfold atan2.
  destruct (Rlt_dec 0 x).
  - rewrite cos_atan, sin_atan, hyp_atan, Rabs_right by lra. split; field; lra.
  - destruct (Rlt_dec x 0).
    + assert (E : cos (atan (y / x)) = - x / sqrt (x * x + y * y) /\ sin (atan (y / x)) = - y / sqrt (x * x + y * y)).
      { rewrite cos_atan, sin_atan, hyp_atan, Rabs_left by lra. split; field; lra. }
      destruct E as [E1 E2].
      destruct (Rlt_dec y 0).
      * rewrite cos_minus, sin_minus, cos_PI, sin_PI, E1, E2. split; field; lra.
      * rewrite cos_plus, sin_plus, cos_PI, sin_PI, E1, E2. split; field; lra.
    + assert (x = 0) by lra. subst x. destruct (Rlt_dec 0 y).
      * rewrite cos_PI2, sin_PI2, Rmult_0_l, Rplus_0_l, sqrt_square by lra. split; field; lra.
      * destruct (Rlt_dec y 0).
        -- rewrite cos_neg, sin_neg, cos_PI2, sin_PI2, Rmult_0_l, Rplus_0_l.
           replace (y * y) with ((-y) * (-y)) by ring. rewrite sqrt_square by lra. split; field; lra.
        -- destruct N; lra.
Qed.

(** An angle in (-pi, pi] is determined by its cosine and sine. *)
Lemma angle_unique s t : - PI < s <= PI -> - PI < t <= PI ->
  cos s = cos t -> sin s = sin t -> s = t.
Proof.
  intros Hs Ht C S.
  assert (E : cos (s - t) = 1) by (rewrite cos_minus, C, S; apply cs1).
  assert (Z : sin ((s - t) / 2) = 0).
  { assert (cos (s - t) = 1 - 2 * sin ((s - t)/2) * sin ((s - t)/2)).
    { replace (s - t) with (2 * ((s - t)/2)) at 1 by field. apply cos_2a_sin. }
    nra. }
  destruct (Rtotal_order s t) as [L|[L|L]]; auto.
  - assert (0 < sin ((t - s)/2)) by (apply sin_gt_0; lra).
    replace ((t - s)/2) with (- ((s - t)/2)) in H by field. rewrite sin_neg in H. lra.
  - assert (0 < sin ((s - t)/2)) by (apply sin_gt_0; lra). lra.
Qed.

Lemma atan2_of_polar r t : 0 < r -> - PI < t <= PI -> atan2 (r * sin t) (r * cos t) = t.
Proof.
  intros Hr Ht. pose proof (cs1 t).
  assert (N : r * cos t <> 0 \/ r * sin t <> 0).
  { destruct (Req_dec (cos t) 0) as [E|E]; [right|left]; apply Rmult_integral_contrapositive; split; try lra.
    intros E'. rewrite E, E' in H. lra. }
  destruct (atan2_polar _ _ N) as [C S].
  assert (Q : sqrt (r * cos t * (r * cos t) + r * sin t * (r * sin t)) = r).
  { replace (r * cos t * (r * cos t) + r * sin t * (r * sin t)) with (r * r) by nra.
    apply sqrt_square; lra. }
  rewrite Q in C, S. apply angle_unique; auto using atan2_range.
  - rewrite C. field. lra.
  - rewrite S. field. lra.
Qed.

Lemma fmodc_small x y : 0 < y -> Rabs x < y -> fmodc x y = Ret x.
Proof.
  intros Hy H. unfold fmodc. destruct (Req_EM_T y 0); [lra|].
  assert (Ztrunc (x / y) = 0)%Z.
  { apply Rabs_def2 in H. destruct (Rle_or_lt 0 (x / y)) as [L|L].
    - rewrite Ztrunc_floor by auto. apply Zfloor_imp. cbn. split; [lra|].
      apply Rmult_lt_reg_r with y; auto. unfold Rdiv. rewrite Rmult_assoc, Rinv_l by lra. lra.
    - rewrite Ztrunc_ceil by lra. apply Zceil_imp. cbn. split; [|lra].
      apply Rmult_lt_reg_r with y; auto. unfold Rdiv. rewrite Rmult_assoc, Rinv_l by lra. lra. }
  rewrite H0. f_equal. ring.
Qed.
