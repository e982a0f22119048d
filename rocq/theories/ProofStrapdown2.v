(** Proofs about the strapdown navigator, continued: equilibrium, mounting and
    reflection. *)
From Coq Require Import Reals ZArith List Lra Lia FunctionalExtensionality.
From Verif Require Import Base BaseVec SpecRot SpecEarth ModelAttitude ModelGravity ModelNavUtils ModelStrapdown
  SpecStrapdown ProofVec ProofAttitude ProofAttitude2 ProofGravity ProofNavUtils ProofStrapdown.
Import ListNotations.
Open Scope R_scope.

(** ** Equilibrium *)
Lemma next_att_rotvec A d : d <> v3zero -> exists A', next_att (Some A) d = Some A' /\
  forall v, mvmul A' v = mvmul A (rotvec d v).
Proof.
  intros N. eexists. split; [cbn [next_att]; rewrite (updateAttitude_ok A d N); reflexivity|].
  intros v. rewrite mvmul_mmul, axis_matrix_rotate. reflexivity.
Qed.

Lemma s6list_inj u v : s6list u = s6list v -> u = v.
Proof. destruct u as [[] []], v as [[] []]. unfold s6list; cbn. intros X. now injection X as -> -> -> -> -> ->. Qed.

Lemma rk4_step_rest p d dVN gN : d <> 0 -> Rabs (vx p) < PI/2 -> -6300000 < vz p -> dVN = vscale (- d) gN ->
  rk4_step (p, v3zero) d dVN gN = Ret (p, v3zero).
Proof.
  intros Hd Hl Hh E. pose proof (rk4_rest p d dVN gN [0;0;0;0;0;0] eq_refl Hd Hl Hh E) as K.
  rewrite strapdownRk4_eq in K by reflexivity. destruct (rk4_step _ _ _ _) as [y| | | |]; cbn [bind] in K; try discriminate.
  assert (X : s6list y = s6list (p, v3zero)) by congruence. now rewrite (s6list_inj _ _ X).
Qed.

Lemma hover l : forall n n' A p, run (Some n) l = Ret (Some n') -> RB2N n = Some A -> pv n = Some (p, v3zero) ->
  Rabs (vx p) < PI/2 -> -6300000 < vz p ->
  hovers (mvmul A) (vec_of (gravityNed (vx p) (vz p))) (tov n) l -> pv n' = Some (p, v3zero).
Proof.
  induction l as [|m l IH]; intros n n' A p E HA Hp Hl Hh Hv; [cbn in E; inversion E; now subst|].
  apply run_step in E. destruct E as [_ E]. cbn [hovers] in Hv. destruct Hv as (N & T & B & Hv).
  rewrite HA, Hp in E. destruct (next_att_rotvec A _ N) as (A' & EA & VA). rewrite EA in E. cbn [next_pv fst] in E.
  destruct (gravity_total (vx p) (vz p)) as (g & G). rewrite G in E, B, Hv. cbn [vec_of] in B, Hv.
  assert (T' : IZR (s_t m - tov n) / 1000000 <> 0).
  { assert (IZR (s_t m - tov n) <> 0) by (apply not_0_IZR; lia). lra. }
  rewrite rk4_step_rest in E; [|exact T'|exact Hl|exact Hh|rewrite VA; exact B].
  eapply (IH _ _ A' p E); cbn [RB2N pv tov]; auto. rewrite G. cbn [vec_of].
  replace (mvmul A') with (fun v => mvmul A (rotvec (s_dTh m) v)); [exact Hv|].
  apply functional_extensionality. intros v. now rewrite VA.
Qed.

(** ** Mounting *)
Definition mounted (C : mat3) (n : Nav) : Nav :=
  NavS (match RB2N n with Some A => Some (mmul A C) | None => None end) (pv n) (tov n) (dt n).

Lemma rot_tr C : is_rotation C -> mmul C (mtr C) = m3id /\ mmul (mtr C) C = m3id.
Proof. intros H. destruct (rotation_matrix C H) as (H1 & H2 & _). auto. Qed.

Lemma norm_rotated C d : is_rotation C -> norm (mvmul C d) = norm d.
Proof. intros [D _]. unfold norm. now rewrite D. Qed.

Lemma axis_conj C n t : is_rotation C -> mmul C (axis_matrix (mvmul (mtr C) n) t) = mmul (axis_matrix n t) C.
Proof.
  intros H. apply mat3_ext. intros v. rewrite !mvmul_mmul, !axis_matrix_rotate. now apply rotate_conj.
Qed.

Lemma next_att_mounted C a d : is_rotation C ->
  next_att (match a with Some A => Some (mmul A C) | None => None end) (mvmul (mtr C) d)
  = match next_att a d with Some A => Some (mmul A C) | None => None end.
Proof.
  intros H. destruct a as [A|]; [|reflexivity].
  pose proof (norm_rotated (mtr C) d (rotation_mtr C H)) as Nd.
  assert (Dz : {d = v3zero} + {d <> v3zero}).
  { destruct (Req_EM_T (norm d) 0) as [Z|Z]; [left|right; intros ->; apply Z, norm_zero].
    apply dot_zero. rewrite <- norm_sq, Z. ring. }
  destruct Dz as [->|N].
  - assert (Z : mvmul (mtr C) v3zero = v3zero) by (destruct C; unfold mvmul, mtr, v3zero; unfold dot; cbn; apply v3_eq; ring).
    cbn [next_att]. now rewrite Z, !updateAttitude_zero.
  - assert (N' : mvmul (mtr C) d <> v3zero).
    { intros Z. rewrite Z, norm_zero in Nd. pose proof (norm_pos d N). lra. }
    cbn [next_att]. rewrite (updateAttitude_ok _ _ N), (updateAttitude_ok _ _ N'), Nd.
    rewrite <- mvmul_vscale, mmul_assoc, axis_conj, <- mmul_assoc by auto. reflexivity.
Qed.

Lemma run_mounted C l : is_rotation C -> forall n n', run (Some n) l = Ret (Some n') ->
  run (Some (mounted C n)) (map (remount C) l) = Ret (Some (mounted C n')).
Proof.
  intros H. induction l as [|m l IH]; intros n n' E; [cbn in *; inversion E; reflexivity|].
  apply run_step in E. destruct E as [F E]. cbn [run map].
  destruct (integrate_eq (s_dV (remount C m)) (s_dTh (remount C m)) (s_t (remount C m)) (mounted C n)) as [I1 _].
  rewrite I1 by exact F. cbn [bind snd mounted RB2N pv tov dt]. rewrite <- (IH _ _ E). f_equal. f_equal.
  unfold mounted; cbn [RB2N pv tov dt]. change (s_dTh (remount C m)) with (mvmul (mtr C) (s_dTh m)).
  change (s_dV (remount C m)) with (mvmul (mtr C) (s_dV m)). change (s_t (remount C m)) with (s_t m).
  rewrite next_att_mounted by auto. f_equal. destruct (next_att (RB2N n) (s_dTh m)) as [A|]; [|reflexivity].
  destruct (pv n) as [y|]; [|reflexivity]. cbn [next_pv].
  rewrite mvmul_mmul, <- (mvmul_mmul C (mtr C)). destruct (rot_tr C H) as [-> _]. now rewrite mvmul_id.
Qed.

(** ** Reflection *)
Definition flipped (n : Nav) : Nav :=
  NavS (match RB2N n with Some A => Some (mmul flip (mmul A flip)) | None => None end)
       (match pv n with Some y => Some (mirror y) | None => None end) (tov n) (dt n).

Lemma flip_flip : mmul flip flip = m3id.
Proof. unfold flip, m3id; unvec. apply m3_eq; ring. Qed.
Lemma flip_vec v : mvmul flip v = mirrorv v.
Proof. destruct v. unfold flip, mirrorv; unvec. apply v3_eq; ring. Qed.
Lemma norm_flip d : norm (vneg (mvmul flip d)) = norm d.
Proof. rewrite flip_vec. destruct d. unfold norm, mirrorv; unvec. f_equal. ring. Qed.
Lemma axis_flip n t : mmul flip (axis_matrix (vneg (mvmul flip n)) t) = mmul (axis_matrix n t) flip.
Proof. rewrite flip_vec. destruct n. unfold mirrorv, axis_matrix, flip; unvec. apply m3_eq; ring. Qed.
Lemma scale_flip k d : vscale k (vneg (mvmul flip d)) = vneg (mvmul flip (vscale k d)).
Proof. rewrite !flip_vec. destruct d. unfold mirrorv; unvec. apply v3_eq; ring. Qed.

Lemma rk4_step_mirror y d dVN gN : rk4_step (mirror y) d (mirrorv dVN) (mirrorv gN)
  = match rk4_step y d dVN gN with Ret y' => Ret (mirror y') | o => o end.
Proof.
  unfold rk4_step. rewrite dynamics_mirror. destruct (strapdownDynamics y _ _ _) as [f1| | | |]; cbn [bind]; try reflexivity.
  rewrite !mirror_scale, mirror_add, dynamics_mirror. destruct (strapdownDynamics _ _ _ _) as [f2| | | |]; cbn [bind]; try reflexivity.
  rewrite !mirror_scale, mirror_add, dynamics_mirror. destruct (strapdownDynamics _ _ _ _) as [f3| | | |]; cbn [bind]; try reflexivity.
  rewrite !mirror_scale, mirror_add, dynamics_mirror. destruct (strapdownDynamics _ _ _ _) as [f4| | | |]; cbn [bind]; try reflexivity.
  now rewrite !mirror_scale, !mirror_add.
Qed.

Lemma next_att_flipped a d :
  next_att (match a with Some A => Some (mmul flip (mmul A flip)) | None => None end) (vneg (mvmul flip d))
  = match next_att a d with Some A => Some (mmul flip (mmul A flip)) | None => None end.
Proof.
  destruct a as [A|]; [|reflexivity]. pose proof (norm_flip d) as Nd.
  assert (Dz : {d = v3zero} + {d <> v3zero}).
  { destruct (Req_EM_T (norm d) 0) as [Z|Z]; [left|right; intros ->; apply Z, norm_zero].
    apply dot_zero. rewrite <- norm_sq, Z. ring. }
  destruct Dz as [->|N].
  - assert (Z : vneg (mvmul flip v3zero) = v3zero) by (rewrite flip_vec; unfold mirrorv, v3zero; unvec; apply v3_eq; ring).
    cbn [next_att]. now rewrite Z, !updateAttitude_zero.
  - assert (N' : vneg (mvmul flip d) <> v3zero).
    { intros Z. rewrite Z, norm_zero in Nd. pose proof (norm_pos d N). lra. }
    cbn [next_att]. rewrite (updateAttitude_ok _ _ N), (updateAttitude_ok _ _ N'), Nd.
    rewrite scale_flip, !mmul_assoc, axis_flip. reflexivity.
Qed.

Lemma run_flipped l : forall n n', run (Some n) l = Ret (Some n') ->
  run (Some (flipped n)) (map flip_sample l) = Ret (Some (flipped n')).
Proof.
  induction l as [|m l IH]; intros n n' E; [cbn in *; inversion E; reflexivity|].
  apply run_step in E. destruct E as [F E]. cbn [run map].
  destruct (integrate_eq (s_dV (flip_sample m)) (s_dTh (flip_sample m)) (s_t (flip_sample m)) (flipped n)) as [I1 _].
  rewrite I1 by exact F. cbn [bind snd flipped RB2N pv tov dt]. rewrite <- (IH _ _ E). f_equal. f_equal.
  unfold flipped; cbn [RB2N pv tov dt]. change (s_dTh (flip_sample m)) with (vneg (mvmul flip (s_dTh m))).
  change (s_dV (flip_sample m)) with (mvmul flip (s_dV m)). change (s_t (flip_sample m)) with (s_t m).
  rewrite next_att_flipped. f_equal. destruct (next_att (RB2N n) (s_dTh m)) as [A|]; [|reflexivity].
  destruct (pv n) as [y|]; [|reflexivity]. cbn [next_pv].
  rewrite !mvmul_mmul, <- (mvmul_mmul flip flip), flip_flip, mvmul_id, flip_vec.
  cbn [mirror fst mirrorv vx vz]. destruct (gravity_symmetry (vx (fst y)) (vz (fst y))) as (gn & gd & -> & ->).
  change (V3 (- gn) 0 gd) with (mirrorv (V3 gn 0 gd)). change (V3 (- vx (fst y)) (vy (fst y)) (vz (fst y)), mirrorv (snd y)) with (mirror y).
  rewrite rk4_step_mirror. now destruct (rk4_step y _ _ _).
Qed.
