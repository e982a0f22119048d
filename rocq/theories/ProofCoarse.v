(** Proofs about coarse alignment. *)
From Coq Require Import Reals Lra Psatz Nsatz.
From Verif Require Import Base BaseVec SpecRot SpecCoarse ModelCoarse ProofVec.
Open Scope R_scope.

(** The matrix returned. *)
Lemma coarse_closed lat wE g a w : g <> 0 -> wE <> 0 -> cos lat <> 0 ->
  let ka := / g in let kw := / (wE * cos lat) in
  coarseAttitudeAlignment lat wE g a w =
  Ret (true, M3 (kw * (vx w - wE * sin lat * ka * vx a)) (kw * (vy w - wE * sin lat * ka * vy a)) (kw * (vz w - wE * sin lat * ka * vz a))
                (- (ka * kw) * vx (cross a w)) (- (ka * kw) * vy (cross a w)) (- (ka * kw) * vz (cross a w))
                (- ka * vx a) (- ka * vy a) (- ka * vz a)).
Proof.
  intros Hg Hw Hc ka kw. unfold coarseAttitudeAlignment, minvc, Rdivc.
  destruct Req_EM_T as [E|E].
  - exfalso. unfold mdet in E; cbn in E.
    assert (g * wE * cos lat * (g * wE * cos lat) * g = 0 * g) by nra.
    apply Rmult_eq_reg_r in H; [|exact Hg]. apply Rsqr_0_uniq in H. destruct (Rmult_integral _ _ H) as [H'|]; [|tauto].
    destruct (Rmult_integral _ _ H'); tauto.
  - cbn [bind]. f_equal. f_equal. unfold mmul, mscale, madj, mdet, ka, kw, cross. cbn.
    f_equal; field; auto.
Qed.
Lemma coarse_singular lat wE g a w : g = 0 \/ wE = 0 \/ cos lat = 0 -> coarseAttitudeAlignment lat wE g a w = NonFinite.
Proof.
  intros H. unfold coarseAttitudeAlignment, minvc, Rdivc. destruct Req_EM_T as [E|E]; [reflexivity|].
  exfalso; apply E. unfold mdet; cbn. destruct H as [->|[->| ->]]; ring.
Qed.

Lemma sc2 x : sin x * sin x + cos x * cos x = 1.
Proof. pose proof (sin2_cos2 x). unfold Rsqr in H. exact H. Qed.

Lemma coarse_rotation lat wE g a w M : coarseAttitudeAlignment lat wE g a w = Ret (true, M) ->
  (is_rotation M <-> dot a a = g * g /\ dot w w = wE * wE /\ dot a w = g * (wE * sin lat)).
Proof.
  intros H.
  destruct (Req_dec g 0) as [Hg|Hg]; [rewrite coarse_singular in H by auto; discriminate|].
  destruct (Req_dec wE 0) as [Hw|Hw]; [rewrite coarse_singular in H by auto; discriminate|].
  destruct (Req_dec (cos lat) 0) as [Hc|Hc]; [rewrite coarse_singular in H by auto; discriminate|].
  rewrite coarse_closed in H by assumption.
  assert (Hka : / g * g = 1) by (field; assumption).
  assert (Hkw : / (wE * cos lat) * (wE * cos lat) = 1) by (field; auto).
  revert H Hka Hkw. generalize (/ g) (/ (wE * cos lat)). intros ka kw H Hka Hkw.
  injection H as <-. pose proof (sc2 lat) as SC.
  destruct a as [a1 a2 a3], w as [w1 w2 w3].
  rewrite rotation_iff. unfold dot, cross, mmul, mtr, m3id, mdet. cbn.
  revert Hka Hkw SC Hg Hw Hc. generalize (sin lat) (cos lat). intros s c Hka Hkw SC Hg Hw Hc.
  split.
  - intros [E _]. injection E as E11 E12 E13 E21 E22 E23 E31 E32 E33.
    assert (Ea : a1 * a1 + a2 * a2 + a3 * a3 = g * g).
    { replace (g * g) with (g * g * (- ka * a1 * (- ka * a1) + - ka * a2 * (- ka * a2) + - ka * a3 * (- ka * a3))) by (rewrite E33; ring).
      clear E11 E12 E13 E21 E22 E23 E31 E32 E33. nsatz. }
    assert (Eaw : a1 * w1 + a2 * w2 + a3 * w3 = g * (wE * s)).
    { assert (P : 0 = g * (wE * c) * (- ka * a1 * (kw * (w1 - wE * s * ka * a1)) + - ka * a2 * (kw * (w2 - wE * s * ka * a2)) + - ka * a3 * (kw * (w3 - wE * s * ka * a3))))
        by (rewrite E31; ring).
      clear E11 E12 E13 E21 E22 E23 E31 E32 E33. nsatz. }
    repeat split; [exact Ea| |exact Eaw].
    assert (P : wE * c * (wE * c) = wE * c * (wE * c) * (kw * (w1 - wE * s * ka * a1) * (kw * (w1 - wE * s * ka * a1)) + kw * (w2 - wE * s * ka * a2) * (kw * (w2 - wE * s * ka * a2)) + kw * (w3 - wE * s * ka * a3) * (kw * (w3 - wE * s * ka * a3))))
      by (rewrite E11; ring).
    clear E11 E12 E13 E21 E22 E23 E31 E32 E33. nsatz.
  - intros [Ea [Ew Eaw]]. split.
    + f_equal; nsatz.
    + nsatz.
Qed.

(** Turning the unit turns the result. *)
Lemma coarse_equivariant lat wE g a w M Rm : is_rotation Rm ->
  coarseAttitudeAlignment lat wE g a w = Ret (true, M) ->
  coarseAttitudeAlignment lat wE g (mvmul (mtr Rm) a) (mvmul (mtr Rm) w) = Ret (true, mmul M Rm).
Proof.
  intros HR H. pose proof (proj2 (rotation_mtr _ HR)) as HX.
  unfold coarseAttitudeAlignment in *. rewrite HX. destruct (minvc _) as [Ai| | | |]; try discriminate.
  cbn [bind] in *. injection H as <-. f_equal. f_equal.
  destruct Ai, Rm, a, w. unfold mmul, mvmul, mtr, cross, vneg. cbn. f_equal; ring.
Qed.
Lemma coarse_rest lat wE g : g <> 0 -> wE <> 0 -> cos lat <> 0 ->
  coarseAttitudeAlignment lat wE g (rest_force g) (earth_rate wE lat) = Ret (true, m3id).
Proof.
  intros Hg Hw Hc. rewrite coarse_closed by assumption. f_equal. f_equal. unfold rest_force, earth_rate, cross, m3id. cbn.
  f_equal; field; auto.
Qed.
Lemma mmul_id_l A : mmul m3id A = A.
Proof. destruct A. unfold mmul, m3id. cbn. f_equal; ring. Qed.
Lemma coarse_true lat wE g Rm : g <> 0 -> wE <> 0 -> cos lat <> 0 -> is_rotation Rm ->
  coarseAttitudeAlignment lat wE g (mvmul (mtr Rm) (rest_force g)) (mvmul (mtr Rm) (earth_rate wE lat)) = Ret (true, Rm).
Proof.
  intros Hg Hw Hc HR. rewrite (coarse_equivariant _ _ _ _ _ m3id); [now rewrite mmul_id_l|exact HR|]. now apply coarse_rest.
Qed.
Lemma coarse_gyro_error lat wE g Rm e : g <> 0 -> wE <> 0 -> cos lat <> 0 -> is_rotation Rm ->
  let k := / (wE * cos lat) in
  coarseAttitudeAlignment lat wE g (mvmul (mtr Rm) (rest_force g)) (mvmul (mtr Rm) (vadd (earth_rate wE lat) e)) =
  Ret (true, mmul (M3 (1 + k * vx e) (k * vy e) (k * vz e) (- (k * vy e)) (1 + k * vx e) 0 0 0 1) Rm).
Proof.
  intros Hg Hw Hc HR k. apply coarse_equivariant; [exact HR|].
  rewrite coarse_closed by assumption. f_equal. f_equal. unfold rest_force, earth_rate, cross, vadd, k. cbn.
  f_equal; field; auto.
Qed.
Lemma coarse_accel_error lat wE g Rm e w M : is_rotation Rm ->
  coarseAttitudeAlignment lat wE g (mvmul (mtr Rm) (vadd (rest_force g) e)) w = Ret (true, M) ->
  row3 M = mvmul (mtr Rm) (V3 (- (vx e / g)) (- (vy e / g)) (1 - vz e / g)).
Proof.
  intros HR H.
  destruct (Req_dec g 0) as [Hg|Hg]; [rewrite coarse_singular in H by auto; discriminate|].
  destruct (Req_dec wE 0) as [Hw|Hw]; [rewrite coarse_singular in H by auto; discriminate|].
  destruct (Req_dec (cos lat) 0) as [Hc|Hc]; [rewrite coarse_singular in H by auto; discriminate|].
  rewrite coarse_closed in H by assumption. injection H as <-. unfold row3, mvmul, mtr, vadd, rest_force. cbn.
  f_equal; field; assumption.
Qed.
