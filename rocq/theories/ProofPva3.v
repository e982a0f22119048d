(** Proofs about the error dynamics as differential equations. *)
From Coq Require Import Reals List Lra Lia.
From Coquelicot Require Import Coquelicot.
From Verif Require Import Base BaseVec SpecRot SpecEarth SpecPva SpecPva2 ModelGravity ModelNavUtils ModelPva
  ProofVec ProofGravity ProofPva.
Import ListNotations.
Open Scope R_scope.

Lemma l9_inj u v w u' v' w' : l9 u v w = l9 u' v' w' -> u = u' /\ v = v' /\ w = w'.
Proof. intros H. injection H as A1 A2 A3 A4 A5 A6 A7 A8 A9. repeat split; apply v3_ext; auto. Qed.
Lemma ladd_l9 u v w u' v' w' : ladd (l9 u v w) (l9 u' v' w') = l9 (vadd u u') (vadd v v') (vadd w w').
Proof. reflexivity. Qed.

Lemma vd_add f g t u v : vec_derive f t u -> vec_derive g t v -> vec_derive (fun t => vadd (f t) (g t)) t (vadd u v).
Proof. intros (A & B & C) (A' & B' & C'). split; [|split]; cbn [vadd vx vy vz]; apply (is_derive_plus (V := R_NormedModule)); auto. Qed.
Lemma vd_sub f g t u v : vec_derive f t u -> vec_derive g t v -> vec_derive (fun t => vsub (f t) (g t)) t (vsub u v).
Proof. intros (A & B & C) (A' & B' & C'). split; [|split]; cbn [vsub vx vy vz]; apply (is_derive_minus (V := R_NormedModule)); auto. Qed.
Lemma vd_const c t : vec_derive (fun _ => c) t v3zero.
Proof. split; [|split]; apply (is_derive_const (V := R_NormedModule)). Qed.

Lemma dlin (f g h : R -> R) a b c t f' g' h' : is_derive f t f' -> is_derive g t g' -> is_derive h t h' ->
  is_derive (fun t => a * f t + b * g t + c * h t) t (a * f' + b * g' + c * h').
Proof.
  intros A B C. apply (is_derive_plus (V := R_NormedModule)); [apply (is_derive_plus (V := R_NormedModule))|]; apply is_derive_scal; auto.
Qed.
Lemma vd_mvmul A f t u : vec_derive f t u -> vec_derive (fun t => mvmul A (f t)) t (mvmul A u).
Proof. intros (H1 & H2 & H3). split; [|split]; cbn [mvmul vx vy vz]; apply dlin; auto. Qed.
Lemma cmat_cross w u : mvmul (cmat w) u = cross w u.
Proof. unfold cmat. vec_ring. Qed.
Lemma cmat_skew w : snd (skewSymmetric w) = cmat w.
Proof. apply mat3_ext. intros u. rewrite ecef_classic, cmat_cross. reflexivity. Qed.
Lemma vd_cross w f t u : vec_derive f t u -> vec_derive (fun t => cross w (f t)) t (cross w u).
Proof.
  intros H. apply (vd_mvmul (cmat w)) in H. rewrite cmat_cross in H.
  destruct H as (A & B & C). split; [|split]; (eapply is_derive_ext; [|eassumption]); intros x; cbv beta; rewrite cmat_cross; reflexivity.
Qed.

Lemma dprod (f g : R -> R) t f' g' : is_derive f t f' -> is_derive g t g' -> is_derive (fun t => f t * g t) t (f' * g t + f t * g').
Proof. intros A B. evar_last. apply (is_derive_mult (K := R_AbsRing) f g t f' g' A B); intros; apply Rmult_comm. reflexivity. Qed.
Lemma dcosw w t : is_derive (fun t => cos (w * t)) t (- w * sin (w * t)).
Proof. auto_derive; auto. ring. Qed.
Lemma dsinw w t : is_derive (fun t => sin (w * t)) t (w * cos (w * t)).
Proof. auto_derive; auto. ring. Qed.

Lemma polar_rotation x : is_rotation (polar x).
Proof.
  split; intros [a b c] [d e f]; pose proof (cs1 x) as H.
  - unfold dot, mvmul, polar; cbn [vx vy vz m11 m12 m13 m21 m22 m23 m31 m32 m33].
    transitivity ((cos x * cos x + sin x * sin x) * (a * d + b * e) + c * f); [ring|rewrite H; ring].
  - unfold cross, mvmul, polar; cbn [vx vy vz m11 m12 m13 m21 m22 m23 m31 m32 m33]. apply v3_eq; [ring|ring|].
    transitivity ((cos x * cos x + sin x * sin x) * (a * e - b * d)); [ring|rewrite H; ring].
Qed.
Lemma polar_derive w f t u : vec_derive f t u ->
  vec_derive (fun t => mvmul (polar (w * t)) (f t)) t
    (vsub (mvmul (polar (w * t)) u) (cross (V3 0 0 w) (mvmul (polar (w * t)) (f t)))).
Proof.
  intros (A & B & C). pose proof (dcosw w t) as Dc. pose proof (dsinw w t) as Ds.
  unfold mvmul, polar, vsub, cross; cbn [vx vy vz m11 m12 m13 m21 m22 m23 m31 m32 m33].
  split; [|split]; cbn [vx vy vz].
  - eapply is_derive_ext; [|evar_last; [apply (is_derive_plus (V := R_NormedModule)); [apply (dprod _ _ _ _ _ Dc A)|apply (dprod _ _ _ _ _ Ds B)]|]].
    + intros s. cbn. ring.
    + cbn. ring.
  - eapply is_derive_ext; [|evar_last; [apply (is_derive_minus (V := R_NormedModule)); [apply (dprod _ _ _ _ _ Dc B)|apply (dprod _ _ _ _ _ Ds A)]|]].
    + intros s. cbn. unfold minus, plus, opp; cbn. ring.
    + cbn. unfold minus, plus, opp; cbn. ring.
  - eapply is_derive_ext; [|evar_last; [apply C|]].
    + intros s. cbn. ring.
    + cbn. ring.
Qed.

Ltac vring := apply v3_ext; unfold mvmul, mmul, mtr, vadd, vsub, vneg, vscale, cross, v3zero;
  cbn [vx vy vz m11 m12 m13 m21 m22 m23 m31 m32 m33]; ring.
Lemma rot_tr A : is_rotation A -> forall u, mvmul (mtr A) (mvmul A u) = u.
Proof. intros H u. apply rotation_matrix in H. rewrite <- mvmul_mmul. destruct H as (_ & -> & _). apply mvmul_id. Qed.
Lemma rot_conj A : is_rotation A -> forall B u, mvmul (mmul (mmul A B) (mtr A)) (mvmul A u) = mvmul A (mvmul B u).
Proof. intros H B u. rewrite !mvmul_mmul, rot_tr; auto. Qed.
Lemma polar_axis x k : mvmul (polar x) (V3 0 0 k) = V3 0 0 k.
Proof. unfold polar. vec_ring. Qed.
Lemma polar_tr x : mtr (polar x) = polar (- x).
Proof. unfold polar, mtr. cbn [m11 m12 m13 m21 m22 m23 m31 m32 m33]. rewrite cos_neg, sin_neg. apply m3_eq; ring. Qed.
Lemma polar_cross x k u : cross (V3 0 0 k) (mvmul (polar x) u) = mvmul (polar x) (cross (V3 0 0 k) u).
Proof. destruct (polar_rotation x) as (_ & H). rewrite <- H, polar_axis. reflexivity. Qed.

(** ** What the two error models say *)
Lemma inertial_flow a Gr Rm F0 G0 F G psi dv dp dw df dg : 
  (forall t, inertialErrorDynamics (a t) (Gr t) (Rm t) F0 G0 = (true, (F t, G t))) ->
  error_flow F G psi dv dp dw df dg <->
  (forall t, vec_derive psi t (vneg (mvmul (Rm t) (dw t))) /\
     vec_derive dv t (vadd (vadd (cross (a t) (psi t)) (mvmul (Gr t) (dp t))) (vadd (mvmul (Rm t) (df t)) (dg t))) /\
     vec_derive dp t (dv t)).
Proof.
  intros H. assert (S : size9 F0 /\ size9 G0).
  { specialize (H 0). unfold inertialErrorDynamics in H. rewrite <- !is9_inv. destruct (is9x9 F0), (is9x9 G0); cbn in H; auto; discriminate. }
  destruct S as (SF & SG).
  assert (E : forall t, ladd (mx_apply (F t) (l9 (psi t) (dv t) (dp t))) (mx_apply (G t) (l9 (dw t) (df t) (dg t))) =
     l9 (vneg (mvmul (Rm t) (dw t))) (vadd (vadd (cross (a t) (psi t)) (mvmul (Gr t) (dp t))) (vadd (mvmul (Rm t) (df t)) (dg t))) (dv t)).
  { intros t. destruct (inertial_blocks (a t) (Gr t) (Rm t) F0 G0 SF SG) as (F' & G' & E & _ & A & B).
    rewrite H in E. injection E as <- <-. rewrite A, B, ladd_l9. f_equal; vring. }
  unfold error_flow. setoid_rewrite E. split; intros K t; specialize (K t).
  - destruct K as (u & v & w & A & B & C & D). apply l9_inj in D. destruct D as (-> & -> & ->). auto.
  - destruct K as (A & B & C). do 3 eexists. eauto.
Qed.
Lemma ecef_flow a Gr Rm W F0 G0 F G psi dv dp dw df dg : 
  (forall t, ecefErrorDynamics (a t) (Gr t) (Rm t) (cmat W) F0 G0 = (true, (F t, G t))) ->
  error_flow F G psi dv dp dw df dg <->
  (forall t, vec_derive psi t (vsub (vneg (mvmul (Rm t) (dw t))) (cross W (psi t))) /\
     vec_derive dv t (vadd (vsub (vadd (cross (a t) (psi t)) (mvmul (Gr t) (dp t)))
        (vadd (vscale 2 (cross W (dv t))) (cross W (cross W (dp t))))) (vadd (mvmul (Rm t) (df t)) (dg t))) /\
     vec_derive dp t (dv t)).
Proof.
  intros H. assert (S : size9 F0 /\ size9 G0).
  { specialize (H 0). unfold ecefErrorDynamics in H. rewrite <- !is9_inv. destruct (is9x9 F0), (is9x9 G0); cbn in H; auto; discriminate. }
  destruct S as (SF & SG).
  assert (E : forall t, ladd (mx_apply (F t) (l9 (psi t) (dv t) (dp t))) (mx_apply (G t) (l9 (dw t) (df t) (dg t))) =
     l9 (vsub (vneg (mvmul (Rm t) (dw t))) (cross W (psi t))) (vadd (vsub (vadd (cross (a t) (psi t)) (mvmul (Gr t) (dp t)))
        (vadd (vscale 2 (cross W (dv t))) (cross W (cross W (dp t))))) (vadd (mvmul (Rm t) (df t)) (dg t))) (dv t)).
  { intros t. destruct (ecef_blocks (a t) (Gr t) (Rm t) (cmat W) F0 G0 SF SG) as (F' & G' & E & _ & A & B).
    rewrite H in E. injection E as <- <-. rewrite A, B, ladd_l9, !cmat_cross. f_equal; vring. }
  unfold error_flow. setoid_rewrite E. split; intros K t; specialize (K t).
  - destruct K as (u & v & w & A & B & C & D). apply l9_inj in D. destruct D as (-> & -> & ->). auto.
  - destruct K as (A & B & C). do 3 eexists. eauto.
Qed.

(** ** The two models describe the same errors *)
Lemma vd_ext f g t u : (forall s, f s = g s) -> vec_derive f t u -> vec_derive g t u.
Proof. intros E (A & B & C). split; [|split]; (eapply is_derive_ext; [|eassumption]); intros s; cbn; now rewrite E. Qed.
Lemma vd_eq f t u v : u = v -> vec_derive f t u -> vec_derive f t v.
Proof. now intros ->. Qed.
Lemma polar_derive_iff w f t u : vec_derive f t u <->
  vec_derive (fun t => mvmul (polar (w * t)) (f t)) t
    (vsub (mvmul (polar (w * t)) u) (cross (V3 0 0 w) (mvmul (polar (w * t)) (f t)))).
Proof.
  split; [apply polar_derive|]. intros H. apply (polar_derive (- w)) in H.
  replace (- w * t) with (- (w * t)) in H by ring. rewrite <- polar_tr in H.
  eapply vd_ext; [|eapply vd_eq; [|apply H]].
  - intros s. cbv beta. replace (- w * s) with (- (w * s)) by ring. rewrite <- polar_tr. apply rot_tr, polar_rotation.
  - rewrite polar_cross. set (A := polar (w * t)). assert (HA : is_rotation A) by apply polar_rotation.
    assert (L : forall a b, mvmul (mtr A) (vsub (mvmul A a) (mvmul A b)) = vsub a b).
    { intros. rewrite <- (rot_tr A HA (vsub a b)). f_equal. vring. }
    rewrite L, rot_tr by auto. vring.
Qed.

Lemma frames_agree w a Gr Rm F0 G0 FI GI FE GE psi dv dp dw df dg :
  let A t := polar (w * t) in let W := V3 0 0 w in
  (forall t, inertialErrorDynamics (a t) (Gr t) (Rm t) F0 G0 = (true, (FI t, GI t))) ->
  (forall t, ecefErrorDynamics (mvmul (A t) (a t)) (mmul (mmul (A t) (Gr t)) (mtr (A t))) (mmul (A t) (Rm t)) (cmat W) F0 G0 = (true, (FE t, GE t))) ->
  error_flow FI GI psi dv dp dw df dg <->
  error_flow FE GE (fun t => mvmul (A t) (psi t)) (fun t => mvmul (A t) (vsub (dv t) (cross W (dp t)))) (fun t => mvmul (A t) (dp t))
    dw df (fun t => mvmul (A t) (dg t)).
Proof.
  intros A W HI HE. rewrite (inertial_flow _ _ _ _ _ _ _ _ _ _ _ _ _ HI). rewrite (ecef_flow _ _ _ _ _ _ _ _ _ _ _ _ _ _ HE).
  assert (P : forall t, vec_derive psi t (vneg (mvmul (Rm t) (dw t))) <-> vec_derive (fun t => mvmul (A t) (psi t)) t
      (vsub (vneg (mvmul (mmul (A t) (Rm t)) (dw t))) (cross W (mvmul (A t) (psi t))))).
  { intros t. rewrite (polar_derive_iff w psi). fold (A t) W. 
    replace (vneg (mvmul (mmul (A t) (Rm t)) (dw t))) with (mvmul (A t) (vneg (mvmul (Rm t) (dw t)))); [reflexivity|].
    rewrite mvmul_mmul. generalize (mvmul (Rm t) (dw t)). intros. vring. }
  assert (Q : forall t, vec_derive dp t (dv t) <-> vec_derive (fun t => mvmul (A t) (dp t)) t (mvmul (A t) (vsub (dv t) (cross W (dp t))))).
  { intros t. rewrite (polar_derive_iff w dp). fold (A t) W. 
    replace (mvmul (A t) (vsub (dv t) (cross W (dp t)))) with (vsub (mvmul (A t) (dv t)) (cross W (mvmul (A t) (dp t)))); [reflexivity|].
    unfold W, A. rewrite polar_cross. generalize (cross (V3 0 0 w) (dp t)). intros. vring. }
  assert (T : forall t, vec_derive dp t (dv t) -> 
     (vec_derive dv t (vadd (vadd (cross (a t) (psi t)) (mvmul (Gr t) (dp t))) (vadd (mvmul (Rm t) (df t)) (dg t))) <->
      vec_derive (fun t => mvmul (A t) (vsub (dv t) (cross W (dp t)))) t
       (vadd (vsub (vadd (cross (mvmul (A t) (a t)) (mvmul (A t) (psi t))) (mvmul (mmul (mmul (A t) (Gr t)) (mtr (A t))) (mvmul (A t) (dp t))))
        (vadd (vscale 2 (cross W (mvmul (A t) (vsub (dv t) (cross W (dp t)))))) (cross W (cross W (mvmul (A t) (dp t))))))
        (vadd (mvmul (mmul (A t) (Rm t)) (df t)) (mvmul (A t) (dg t)))))).
  { intros t D. pose proof (vd_cross W _ _ _ D) as D'.
    rewrite rot_conj by apply polar_rotation. destruct (polar_rotation (w * t)) as (_ & X). fold (A t) in X. rewrite X.
    transitivity (vec_derive (fun t => vsub (dv t) (cross W (dp t))) t 
      (vsub (vadd (vadd (cross (a t) (psi t)) (mvmul (Gr t) (dp t))) (vadd (mvmul (Rm t) (df t)) (dg t))) (cross W (dv t)))).
    { split; intros E.
      - apply vd_sub; auto.
      - eapply vd_ext; [|eapply vd_eq; [|apply (vd_add _ _ _ _ _ E D')]]; [intros s; cbv beta|]; generalize (cross W); intros; vring. }
    rewrite (polar_derive_iff w). fold (A t) W.
    assert (EQ : forall p q r : vec3, p = q -> (vec_derive (fun t => mvmul (A t) (vsub (dv t) (cross W (dp t)))) t p <-> vec_derive (fun t => mvmul (A t) (vsub (dv t) (cross W (dp t)))) t q)) by (intros; subst; tauto).
    apply EQ; [exact v3zero|]. unfold W, A. rewrite !polar_cross. rewrite !mvmul_mmul.
    generalize (cross (a t) (psi t)) (mvmul (Gr t) (dp t)) (mvmul (Rm t) (df t)) (polar (w * t)). intros. vring. }
  split; intros H t; specialize (H t); destruct H as (H1 & H2 & H3); apply P in H1.
  - split; [exact H1|]. split; [apply T; auto|apply Q; auto].
  - apply Q in H3. split; [exact H1|]. split; [apply T; auto|auto].
Qed.
