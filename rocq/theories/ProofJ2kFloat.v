(** Rounding errors of the J2000 / ECEF rotation: the matrices. *)
From Coq Require Import Reals ZArith List Lra Lia.
From Verif Require Import Base BaseVec SpecRot ModelJ2k ModelJ2kFloat ModelStrapdownFloat SpecFloatOps ProofVec ProofJ2k
  ProofStrapdownFloat ProofHourFloat.
Open Scope R_scope.

(** ** Rotations and distances between maps *)
Lemma rot_norm A : is_rotation A -> forall v, norm (mvmul A v) = norm v.
Proof. intros (H & _) v. unfold norm. now rewrite H. Qed.

Lemma close_near e A B : close_to e A (mvmul B) -> near e A B.
Proof.
  intros H. assert (N : forall v, dot v v = 1 -> norm v = 1) by (intros v E; unfold norm; rewrite E; apply sqrt_1).
  assert (Q : forall v, dot v v = 1 -> small e (vsub (mvmul A v) (mvmul B v))).
  { intros v E. pose proof (H v) as Hv. rewrite (N v E), Rmult_1_r in Hv.
    destruct (comp_le (vsub (mvmul A v) (mvmul B v))) as (K1 & K2 & K3). repeat split; lra. }
  destruct (Q (V3 1 0 0) ltac:(unfold dot; cbn; ring)) as (X1 & X2 & X3).
  destruct (Q (V3 0 1 0) ltac:(unfold dot; cbn; ring)) as (Y1 & Y2 & Y3).
  destruct (Q (V3 0 0 1) ltac:(unfold dot; cbn; ring)) as (Z1 & Z2 & Z3).
  cbn in *. rewrite ?Rmult_0_r, ?Rmult_1_r, ?Rplus_0_l, ?Rplus_0_r in *. repeat split; assumption.
Qed.

Lemma close_le e e' A f : close_to e A f -> e <= e' -> close_to e' A f.
Proof. intros H L v. eapply Rle_trans; [apply H|]. apply Rmult_le_compat_r; [apply norm_nonneg|exact L]. Qed.

Lemma close_trans e1 e2 A B f : close_to e1 A (mvmul B) -> close_to e2 B f -> close_to (e1 + e2) A f.
Proof.
  intros H1 H2 v. pose proof (H1 v). pose proof (H2 v).
  replace (vsub (mvmul A v) (f v)) with (vadd (vsub (mvmul A v) (mvmul B v)) (vsub (mvmul B v) (f v))).
  - pose proof (norm_tri (vsub (mvmul A v) (mvmul B v)) (vsub (mvmul B v) (f v))). lra.
  - generalize (f v). intros [f1 f2 f3]. unfold vadd, vsub. cbn. apply v3_eq; ring.
Qed.

Lemma close_mul e1 e2 A A' B B' : is_rotation A' -> is_rotation B -> close_to e1 A (mvmul A') -> close_to e2 B (mvmul B') ->
  close_to (e1 + e2) (mmul A B) (mvmul (mmul A' B')).
Proof.
  intros R1 R2 H1 H2 v. pose proof (H1 (mvmul B v)) as K1. rewrite (rot_norm B R2) in K1. pose proof (H2 v) as K2.
  rewrite <- (rot_norm A' R1) in K2 at 1. rewrite !mvmul_mmul.
  replace (vsub (mvmul A (mvmul B v)) (mvmul A' (mvmul B' v))) with
    (vadd (vsub (mvmul A (mvmul B v)) (mvmul A' (mvmul B v))) (mvmul A' (vsub (mvmul B v) (mvmul B' v)))).
  - pose proof (norm_tri (vsub (mvmul A (mvmul B v)) (mvmul A' (mvmul B v))) (mvmul A' (vsub (mvmul B v) (mvmul B' v)))). lra.
  - generalize (mvmul B v). generalize (mvmul B' v). intros [x1 x2 x3] [y1 y2 y3]. unfold vadd, vsub, mvmul. cbn. apply v3_eq; ring.
Qed.

Lemma close_tr e A B : near e A B -> near e (mtr A) (mtr B).
Proof. intros ((A1 & A2 & A3) & (B1 & B2 & B3) & (C1 & C2 & C3)). repeat split; assumption. Qed.

(** Turning by nearly the same angle, up to whole turns. *)
Lemma elemX_near a b k e : Rabs (a - (b + 2 * PI * IZR k)) <= e -> close_to e (elemX a) (mvmul (elemX b)).
Proof.
  intros H v. pose proof (elemZ_near a b k e (V3 (vy v) (vz v) (vx v)) H) as K.
  assert (E1 : norm (V3 (vy v) (vz v) (vx v)) = norm v) by (unfold norm, dot; cbn; f_equal; ring).
  rewrite E1 in K. eapply Rle_trans; [|exact K]. apply Req_le. unfold norm, dot, vsub, mvmul, elemX, elemZ.
  cbn -[Rmult Rplus Rminus cos sin]. f_equal. ring.
Qed.
Lemma elemY_near a b k e : Rabs (a - (b + 2 * PI * IZR k)) <= e -> close_to e (elemY a) (mvmul (elemY b)).
Proof.
  intros H v. pose proof (elemZ_near a b k e (V3 (vz v) (vx v) (vy v)) H) as K.
  assert (E1 : norm (V3 (vz v) (vx v) (vy v)) = norm v) by (unfold norm, dot; cbn; f_equal; ring).
  rewrite E1 in K. eapply Rle_trans; [|exact K]. apply Req_le. unfold norm, dot, vsub, mvmul, elemY, elemZ.
  cbn -[Rmult Rplus Rminus cos sin]. f_equal. ring.
Qed.
Lemma elemZ_near' a b k e : Rabs (a - (b + 2 * PI * IZR k)) <= e -> close_to e (elemZ a) (mvmul (elemZ b)).
Proof. intros H v. now apply (elemZ_near a b k). Qed.
Lemma no_turn a b e : Rabs (a - b) <= e -> Rabs (a - (b + 2 * PI * IZR 0)) <= e.
Proof. intros H. now replace (b + 2 * PI * IZR 0) with b by ring. Qed.
Lemma opp_turn a b e : Rabs (a - b) <= e -> Rabs (- a - - b) <= e.
Proof. intros H. replace (- a - - b) with (- (a - b)) by ring. now rewrite Rabs_Ropp. Qed.

(** ** The matrices at the computed angles *)
Definition prec_mat (zeta z theta : R) : mat3 := mmul (mmul (elemZ (- z)) (elemY theta)) (elemZ (- zeta)).
Definition nut_mat (ep dpsi b : R) : mat3 := mmul (mmul (elemX b) (elemZ (- dpsi))) (elemX ep).
Definition pole_mat (x y : R) : mat3 := mmul (elemY (- x)) (elemX (- y)).
Definition whole_mat (x y g ep dpsi b zeta z theta : R) : mat3 :=
  mmul (mmul (mmul (pole_mat x y) (elemZ g)) (nut_mat ep dpsi b)) (prec_mat zeta z theta).

Lemma prec_rot zeta z theta : is_rotation (prec_mat zeta z theta).
Proof. repeat apply rotation_mmul; apply elem_rotation. Qed.
Lemma nut_rot ep dpsi b : is_rotation (nut_mat ep dpsi b).
Proof. repeat apply rotation_mmul; apply elem_rotation. Qed.
Lemma pole_rot x y : is_rotation (pole_mat x y).
Proof. repeat apply rotation_mmul; apply elem_rotation. Qed.
Lemma whole_rot x y g ep dpsi b zeta z theta : is_rotation (whole_mat x y g ep dpsi b zeta z theta).
Proof. repeat apply rotation_mmul; apply elem_rotation. Qed.

(** The whole matrix moves by no more than the angles do together. *)
Lemma whole_near x y g ep dpsi b zeta z theta x' y' g' ep' dpsi' b' zeta' z' theta' k e eg :
  Rabs (x' - x) <= e -> Rabs (y' - y) <= e -> Rabs (g' - (g + 2 * PI * IZR k)) <= eg -> Rabs (ep' - ep) <= e ->
  Rabs (dpsi' - dpsi) <= e -> Rabs (b' - b) <= e -> Rabs (zeta' - zeta) <= e -> Rabs (z' - z) <= e -> Rabs (theta' - theta) <= e ->
  close_to (eg + 8 * e) (whole_mat x' y' g' ep' dpsi' b' zeta' z' theta') (mvmul (whole_mat x y g ep dpsi b zeta z theta)).
Proof.
  intros Hx Hy Hg He Hd Hb Hze Hz Ht. apply no_turn in He, Hb, Ht. apply opp_turn, no_turn in Hx, Hy, Hd, Hze, Hz.
  pose proof (elemY_near _ _ _ _ Hx) as C1. pose proof (elemX_near _ _ _ _ Hy) as C2. pose proof (elemZ_near' _ _ _ _ Hg) as C3.
  pose proof (elemX_near _ _ _ _ Hb) as C4. pose proof (elemZ_near' _ _ _ _ Hd) as C5. pose proof (elemX_near _ _ _ _ He) as C6.
  pose proof (elemZ_near' _ _ _ _ Hz) as C7. pose proof (elemY_near _ _ _ _ Ht) as C8. pose proof (elemZ_near' _ _ _ _ Hze) as C9.
  assert (D1 : close_to (e + e) (pole_mat x' y') (mvmul (pole_mat x y))) by (apply close_mul; auto; apply elem_rotation).
  assert (D2 : close_to (e + e + e) (nut_mat ep' dpsi' b') (mvmul (nut_mat ep dpsi b))).
  { apply close_mul; [apply rotation_mmul; apply elem_rotation|apply elem_rotation| |exact C6]. apply close_mul; auto; apply elem_rotation. }
  assert (D3 : close_to (e + e + e) (prec_mat zeta' z' theta') (mvmul (prec_mat zeta z theta))).
  { apply close_mul; [apply rotation_mmul; apply elem_rotation|apply elem_rotation| |exact C9]. apply close_mul; auto; apply elem_rotation. }
  eapply close_le.
  - apply close_mul; [|apply prec_rot| |exact D3]; [repeat apply rotation_mmul; apply elem_rotation|].
    apply close_mul; [|apply nut_rot| |exact D2]; [repeat apply rotation_mmul; apply elem_rotation|].
    apply close_mul; [|apply elem_rotation|exact D1|exact C3]. repeat apply rotation_mmul; apply elem_rotation.
  - lra.
Qed.

Section Float.
Variable F : FloatOps.
Hypothesis HF : float_ok F.
Notation u := u64.

Lemma zero_ap e : 0 <= e -> forall x, Rabs (x - x) <= e.
Proof. intros H x. now rewrite Rminus_diag_eq, Rabs_R0. Qed.
Lemma elem_f_near a : near (2 * u) (elemX_f F a) (elemX a) /\ near (2 * u) (elemY_f F a) (elemY a) /\ near (2 * u) (elemZ_f F a) (elemZ a).
Proof.
  destruct HF as (_ & _ & S & C). specialize (S a). specialize (C a). pose proof u64_bounds as U.
  assert (N : Rabs (- fsin F a - - sin a) <= 2 * u) by now apply opp_turn.
  assert (Z : forall x, Rabs (x - x) <= 2 * u) by (apply zero_ap; lra).
  repeat split; cbn; auto.
Qed.
Lemma mul_f_close e k A A' B B' : is_rotation A' -> is_rotation B' -> close_to e A (mvmul A') -> 0 <= e <= 1 ->
  near (k * u) B B' -> 0 <= k <= 1000 -> close_to (e + (6 * k + 90) * u) (mmul_f F A B) (mvmul (mmul A' B')).
Proof.
  intros RA RB HA He HB Hk v. rewrite mvmul_mmul. revert v.
  apply (prod_close F HF e k A (mvmul A') B B'); auto using rot_norm.
Qed.
Lemma elem_op A B : near (2 * u) A B -> close_to (6 * u) A (mvmul B).
Proof. intros H. apply near_op in H. eapply close_le; [exact H|]. lra. Qed.

Lemma triple A A' B B' C C' : is_rotation A' -> is_rotation B' -> is_rotation C' ->
  near (2 * u) A A' -> near (2 * u) B B' -> near (2 * u) C C' ->
  close_to (210 * u) (mmul_f F (mmul_f F A B) C) (mvmul (mmul (mmul A' B') C')).
Proof.
  intros RA RB RC HA HB HC. pose proof u64_bounds as U.
  assert (K : close_to (108 * u) (mmul_f F A B) (mvmul (mmul A' B'))).
  { eapply close_le; [apply (mul_f_close (6 * u) 2); auto using elem_op; lra|lra]. }
  eapply close_le; [apply (mul_f_close (108 * u) 2); eauto using rotation_mmul; lra|lra].
Qed.

(** The computed product is within 2910 units of a rotation matrix, whatever
    the angles. *)
Lemma whole_f_close x y g ep dpsi b zeta z theta :
  close_to (2910 * u)
    (mmul_f F (mmul_f F (mmul_f F (polarRotation_f F x y) (elemZ_f F g))
       (mmul_f F (mmul_f F (elemX_f F b) (elemZ_f F (- dpsi))) (elemX_f F ep)))
       (mmul_f F (mmul_f F (elemZ_f F (- z)) (elemY_f F theta)) (elemZ_f F (- zeta))))
    (mvmul (whole_mat x y g ep dpsi b zeta z theta)).
Proof.
  pose proof u64_bounds as U.
  assert (P : near (210 * u) (mmul_f F (mmul_f F (elemZ_f F (- z)) (elemY_f F theta)) (elemZ_f F (- zeta))) (prec_mat zeta z theta)).
  { apply close_near. apply triple; apply elem_rotation || apply elem_f_near. }
  assert (N : near (210 * u) (mmul_f F (mmul_f F (elemX_f F b) (elemZ_f F (- dpsi))) (elemX_f F ep)) (nut_mat ep dpsi b)).
  { apply close_near. apply triple; apply elem_rotation || apply elem_f_near. }
  assert (O : close_to (108 * u) (polarRotation_f F x y) (mvmul (pole_mat x y))).
  { eapply close_le; [apply (mul_f_close (6 * u) 2)|lra]; try lra; try apply elem_rotation; [apply elem_op|]; apply elem_f_near. }
  assert (G : close_to (210 * u) (mmul_f F (polarRotation_f F x y) (elemZ_f F g)) (mvmul (mmul (pole_mat x y) (elemZ g)))).
  { eapply close_le; [apply (mul_f_close (108 * u) 2); [apply pole_rot|apply elem_rotation|exact O|lra|apply elem_f_near|lra]|lra]. }
  assert (H : close_to (1560 * u) (mmul_f F (mmul_f F (polarRotation_f F x y) (elemZ_f F g)) (mmul_f F (mmul_f F (elemX_f F b) (elemZ_f F (- dpsi))) (elemX_f F ep)))
     (mvmul (mmul (mmul (pole_mat x y) (elemZ g)) (nut_mat ep dpsi b)))).
  { eapply close_le; [apply (mul_f_close (210 * u) 210); [apply rotation_mmul; [apply pole_rot|apply elem_rotation]|apply nut_rot|exact G|lra|exact N|lra]|lra]. }
  eapply close_le; [apply (mul_f_close (1560 * u) 210)|lra]; [|apply prec_rot|exact H|lra|exact P|lra].
  repeat apply rotation_mmul; try apply elem_rotation.
Qed.
End Float.
