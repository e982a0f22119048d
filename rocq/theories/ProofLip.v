(** Bounded functions with a Lipschitz constant on a set, and the rates of the
    strapdown equations as such functions. *)
From Coq Require Import Reals List Lra Lia Psatz.
From Coquelicot Require Import Coquelicot.
From Verif Require Import Base BaseVec ModelGravity ModelNavUtils SpecConverge ProofVec ProofGravity ProofFrames ProofFrames2 ProofNavUtils ProofStrapdownFloat.
Open Scope R_scope.

Section LB.
Variable X : Type.
Variable D : X -> Prop.
Variable d : X -> X -> R.
Definition LB (f : X -> R) : Prop := exists M L, 0 <= M /\ 0 <= L /\ forall x y, D x -> D y -> Rabs (f x) <= M /\ Rabs (f x - f y) <= L * d x y.

Lemma lb_const c : LB (fun _ => c).
Proof. exists (Rabs c), 0. split; [apply Rabs_pos|]. split; [lra|]. intros x y _ _. rewrite Rminus_eq_0, Rabs_R0. split; [apply Rle_refl|lra]. Qed.
Lemma lb_add f g : LB f -> LB g -> LB (fun x => f x + g x).
Proof.
  intros (M & L & M0 & L0 & H) (M' & L' & M0' & L0' & H'). exists (M + M'), (L + L'). split; [lra|]. split; [lra|]. intros x y Dx Dy.
  destruct (H x y Dx Dy) as (A & B). destruct (H' x y Dx Dy) as (A' & B'). split.
  - eapply Rle_trans; [apply Rabs_triang|lra].
  - replace (f x + g x - (f y + g y)) with ((f x - f y) + (g x - g y)) by ring. eapply Rle_trans; [apply Rabs_triang|lra].
Qed.
Lemma lb_opp f : LB f -> LB (fun x => - f x).
Proof.
  intros (M & L & M0 & L0 & H). exists M, L. split; [lra|]. split; [lra|]. intros x y Dx Dy. destruct (H x y Dx Dy) as (A & B).
  rewrite Rabs_Ropp. split; [exact A|]. replace (- f x - - f y) with (- (f x - f y)) by ring. now rewrite Rabs_Ropp.
Qed.
Lemma lb_ext f g : (forall x, f x = g x) -> LB g -> LB f.
Proof. intros E (M & L & M0 & L0 & H). exists M, L. split; [lra|]. split; [lra|]. intros x y Dx Dy. rewrite !E. auto. Qed.
Lemma lb_sub f g : LB f -> LB g -> LB (fun x => f x - g x).
Proof. intros H H'. apply (lb_add f (fun x => - g x) H (lb_opp _ H')). Qed.
Lemma lb_mul f g : LB f -> LB g -> LB (fun x => f x * g x).
Proof.
  intros (M & L & M0 & L0 & H) (M' & L' & M0' & L0' & H'). exists (M * M'), (M * L' + L * M'). split; [nra|]. split; [nra|]. intros x y Dx Dy.
  destruct (H x y Dx Dy) as (A & B). destruct (H' x y Dx Dy) as (A' & B'). destruct (H' y x Dy Dx) as (A'' & _). split.
  - rewrite Rabs_mult. apply Rmult_le_compat; auto using Rabs_pos.
  - replace (f x * g x - f y * g y) with (f x * (g x - g y) + (f x - f y) * g y) by ring. eapply Rle_trans; [apply Rabs_triang|]. rewrite !Rabs_mult.
    replace ((M * L' + L * M') * d x y) with (M * (L' * d x y) + (L * d x y) * M') by ring.
    apply Rplus_le_compat; apply Rmult_le_compat; auto using Rabs_pos.
Qed.
Lemma lb_inv f c : 0 < c -> (forall x, D x -> c <= f x) -> LB f -> LB (fun x => / f x).
Proof.
  intros C H (M & L & M0 & L0 & HL). exists (/ c), (L / (c * c)). assert (0 < / c) by now apply Rinv_0_lt_compat.
  split; [lra|]. split. { apply Rmult_le_pos; [exact L0|]. apply Rlt_le, Rinv_0_lt_compat. nra. }
  intros x y Dx Dy. pose proof (H x Dx) as X1. pose proof (H y Dy) as X2. split.
  - rewrite Rabs_pos_eq by (apply Rlt_le, Rinv_0_lt_compat; lra). apply Rinv_le_contravar; lra.
  - replace (/ f x - / f y) with ((f y - f x) / (f x * f y)) by (field; lra). unfold Rdiv at 1. rewrite Rabs_mult, (Rabs_pos_eq (/ (f x * f y))) by (apply Rlt_le, Rinv_0_lt_compat; nra).
    rewrite Rabs_minus_sym. replace (L / (c * c) * d x y) with ((L * d x y) * / (c * c)) by (field; lra).
    apply Rmult_le_compat; [apply Rabs_pos|apply Rlt_le, Rinv_0_lt_compat; nra|apply HL; auto|apply Rinv_le_contravar; nra].
Qed.
Lemma lb_div f g c : 0 < c -> (forall x, D x -> c <= g x) -> LB f -> LB g -> LB (fun x => f x / g x).
Proof. intros C H Hf Hg. apply lb_mul; [exact Hf|]. now apply lb_inv with c. Qed.
Lemma lb_sqrt f c : 0 < c -> (forall x, D x -> c <= f x) -> LB f -> LB (fun x => sqrt (f x)).
Proof.
  intros C H (M & L & M0 & L0 & HL). set (r := sqrt c). assert (R0 : 0 < r) by now apply sqrt_lt_R0.
  exists (sqrt M), (L / r). split; [apply sqrt_pos|]. split. { apply Rmult_le_pos; [exact L0|]. now apply Rlt_le, Rinv_0_lt_compat. }
  intros x y Dx Dy. pose proof (H x Dx) as X1. pose proof (H y Dy) as X2. destruct (HL x y Dx Dy) as (A & B). split.
  - rewrite Rabs_pos_eq by apply sqrt_pos. apply sqrt_le_1; [lra|exact M0|]. rewrite Rabs_pos_eq in A by lra. exact A.
  - assert (S1 : r <= sqrt (f x)) by (apply sqrt_le_1; lra). assert (S2 : r <= sqrt (f y)) by (apply sqrt_le_1; lra).
    assert (E : sqrt (f x) - sqrt (f y) = (f x - f y) / (sqrt (f x) + sqrt (f y))).
    { apply Rmult_eq_reg_r with (sqrt (f x) + sqrt (f y)); [|lra]. unfold Rdiv. rewrite Rmult_assoc, Rinv_l, Rmult_1_r by lra.
      replace ((sqrt (f x) - sqrt (f y)) * (sqrt (f x) + sqrt (f y))) with (sqrt (f x) * sqrt (f x) - sqrt (f y) * sqrt (f y)) by ring. rewrite !sqrt_sqrt by lra. reflexivity. }
    rewrite E. unfold Rdiv at 1. rewrite Rabs_mult, (Rabs_pos_eq (/ _)) by (apply Rlt_le, Rinv_0_lt_compat; lra).
    replace (L / r * d x y) with ((L * d x y) * / r) by (field; lra).
    apply Rmult_le_compat; [apply Rabs_pos|apply Rlt_le, Rinv_0_lt_compat; lra|exact B|apply Rinv_le_contravar; lra].
Qed.
Lemma lb_sin f : LB f -> LB (fun x => sin (f x)).
Proof.
  intros (M & L & M0 & L0 & HL). exists 1, L. split; [lra|]. split; [lra|]. intros x y Dx Dy. destruct (HL x y Dx Dy) as (A & B). split.
  - apply Rabs_le. apply SIN_bound.
  - eapply Rle_trans; [apply sin_lip|exact B].
Qed.
Lemma lb_cos f : LB f -> LB (fun x => cos (f x)).
Proof.
  intros H. apply lb_ext with (fun x => sin (PI / 2 - f x)); [intros; now rewrite sin_shift|]. apply lb_sin. apply lb_sub; [apply lb_const|exact H].
Qed.
End LB.

Lemma n1_pos v : 0 <= n1 v.
Proof. unfold n1. pose proof (Rabs_pos (vx v)). pose proof (Rabs_pos (vy v)). pose proof (Rabs_pos (vz v)). lra. Qed.
Lemma d6_pos y z : 0 <= d6 y z. Proof. unfold d6. pose proof (n1_pos (vsub (fst y) (fst z))). pose proof (n1_pos (vsub (snd y) (snd z))). lra. Qed.

Section Rates.
Variables A H V : R.
Hypothesis HA : 0 <= A < PI / 2.
Hypothesis HH : 0 <= H <= 6200000.
Hypothesis HV : 0 <= V.
Notation lb := (LB _ (Box A H V) d6).
Lemma lb_coord (f : vec3 * vec3 -> R) M : 0 <= M -> (forall y, Box A H V y -> Rabs (f y) <= M) -> (forall y z, Rabs (f y - f z) <= d6 y z) -> lb f.
Proof. intros M0 B L. exists M, 1. split; [exact M0|]. split; [lra|]. intros x y Dx Dy. split; [auto|]. rewrite Rmult_1_l. auto. Qed.
Ltac coord M := apply lb_coord with M; [lra|intros y (? & ? & ? & ? & ?); assumption|
  intros y z; unfold d6, n1, vsub; cbn [vx vy vz];
  pose proof (Rabs_pos (vx (fst y) - vx (fst z))); pose proof (Rabs_pos (vy (fst y) - vy (fst z))); pose proof (Rabs_pos (vz (fst y) - vz (fst z)));
  pose proof (Rabs_pos (vx (snd y) - vx (snd z))); pose proof (Rabs_pos (vy (snd y) - vy (snd z))); pose proof (Rabs_pos (vz (snd y) - vz (snd z))); lra].
Lemma lb_lat : lb (fun y => vx (fst y)). Proof. coord A. Qed.
Lemma lb_h : lb (fun y => vz (fst y)). Proof. coord H. Qed.
Lemma lb_vN : lb (fun y => vx (snd y)). Proof. coord V. Qed.
Lemma lb_vE : lb (fun y => vy (snd y)). Proof. coord V. Qed.
Lemma lb_vD : lb (fun y => vz (snd y)). Proof. coord V. Qed.
Lemma lb_s : lb (fun y => sin (vx (fst y))). Proof. apply lb_sin, lb_lat. Qed.
Lemma lb_c : lb (fun y => cos (vx (fst y))). Proof. apply lb_cos, lb_lat. Qed.
Lemma cos_low y : Box A H V y -> cos A <= cos (vx (fst y)).
Proof.
  intros (B & _). assert (B' := B). apply Rabs_le_between in B'.
  destruct (Rle_dec 0 (vx (fst y))) as [P|P].
  - apply cos_decr_1; pose proof PI_RGT_0; lra.
  - rewrite <- (cos_neg (vx (fst y))). apply cos_decr_1; pose proof PI_RGT_0; lra.
Qed.
Lemma cosA : 0 < cos A. Proof. apply cos_gt_0; pose proof PI_RGT_0; lra. Qed.
Ltac lbs := repeat first [apply lb_lat | apply lb_h | apply lb_vN | apply lb_vE | apply lb_vD | apply lb_s | apply lb_c | apply lb_const | apply lb_add | apply lb_sub | apply lb_mul | apply lb_opp].
Lemma lb_W2 : lb (fun y => W2 (vx (fst y))).
Proof. unfold W2. lbs. Qed.
Lemma lb_sW : lb (fun y => sqrt (W2 (vx (fst y)))).
Proof. apply lb_sqrt with 0.99; [lra| |apply lb_W2]. intros y _. pose proof (W2_bounds (vx (fst y))). lra. Qed.
Lemma lb_Nr : lb (fun y => Nr (vx (fst y))).
Proof.
  unfold Nr. apply lb_div with (sqrt 0.99); [apply sqrt_lt_R0; lra| |lbs|apply lb_sW].
  intros y _. apply sqrt_le_1; pose proof (W2_bounds (vx (fst y))); lra.
Qed.
Lemma lb_Mr : lb (fun y => Mr (vx (fst y))).
Proof.
  unfold Mr. apply lb_div with (0.99 * sqrt 0.99); [apply Rmult_lt_0_compat; [lra|apply sqrt_lt_R0; lra]| |lbs|apply lb_mul; [apply lb_W2|apply lb_sW]].
  intros y _. pose proof (W2_bounds (vx (fst y))). apply Rmult_le_compat; [lra|apply sqrt_pos|lra|]. apply sqrt_le_1; lra.
Qed.
Lemma box_regular y : Box A H V y -> regular y.
Proof.
  intros B. pose proof (cos_low y B). pose proof cosA. destruct B as (_ & B & _). apply Rabs_le_between in B.
  pose proof (Mr_bounds (vx (fst y))). pose proof (Nr_bounds (vx (fst y))) as N. unfold gp_a in N. split; [lra|]. apply Rmult_integral_contrapositive; split; lra.
Qed.
Lemma lb_lat_rate : lb lat_rate.
Proof.
  unfold lat_rate. apply lb_div with 100000; [lra| |lbs|apply lb_add; [apply lb_Mr|lbs]].
  intros y (_ & B & _). apply Rabs_le_between in B. pose proof (Mr_bounds (vx (fst y))). lra.
Qed.
Lemma lb_lon_rate : lb lon_rate.
Proof.
  unfold lon_rate. apply lb_div with (100000 * cos A); [pose proof cosA; lra| |lbs|apply lb_mul; [apply lb_add; [apply lb_Nr|lbs]|lbs]].
  intros y B. pose proof (cos_low y B). pose proof cosA. destruct B as (_ & B & _). apply Rabs_le_between in B.
  pose proof (Nr_bounds (vx (fst y))) as N. unfold gp_a in N. apply Rmult_le_compat; lra.
Qed.
Lemma lb_g_ell : lb (fun y => g_ell (sin (vx (fst y)) * sin (vx (fst y)))).
Proof.
  unfold g_ell. assert (P : forall y : vec3 * vec3, 1 <= g_den (sin (vx (fst y)) * sin (vx (fst y)))).
  { intros y. unfold g_den, gp_a, gp_b. pose proof (t_range (vx (fst y))). nra. }
  apply lb_div with 1; [lra| | |apply lb_sqrt with 1; [lra|auto|]].
  - intros y _. rewrite <- sqrt_1 at 1. apply sqrt_le_1; [lra| |auto]. pose proof (P y). lra.
  - unfold g_num. lbs.
  - unfold g_den. lbs.
Qed.
Lemma lb_gN : lb (fun y => - (808/100) * (1/1000000) * (vz (fst y)/1000) * sin (2 * vx (fst y))).
Proof. unfold Rdiv. lbs. apply lb_sin. lbs. Qed.
Lemma lb_gD : lb (fun y => g_ell (sin (vx (fst y)) * sin (vx (fst y))) * g_alt (sin (vx (fst y)) * sin (vx (fst y))) (vz (fst y))).
Proof. apply lb_mul; [apply lb_g_ell|]. unfold g_alt, Rdiv. lbs. Qed.
End Rates.

(** The field: rates for a given sum [q] of acceleration and gravity. *)
Definition G (y : vec3 * vec3) (q : vec3) : vec3 * vec3 := dyn y q v3zero 1.
Definition grav (y : vec3 * vec3) : vec3 :=
  V3 (- (808/100) * (1/1000000) * (vz (fst y)/1000) * sin (2 * vx (fst y))) 0
     (g_ell (sin (vx (fst y)) * sin (vx (fst y))) * g_alt (sin (vx (fst y)) * sin (vx (fst y))) (vz (fst y))).
Lemma dyn_G y a g dt : dyn y a g dt = G y (vadd (vscale (/ dt) a) g).
Proof. unfold G, dyn, vadd, vscale, v3zero. cbn [vx vy vz]. f_equal. apply v3_eq; unfold Rdiv; rewrite Rinv_1; ring. Qed.

Definition six (P : (vec3 * vec3 -> R) -> Prop) : Prop :=
  P (fun y => vx (fst y)) /\ P (fun y => vy (fst y)) /\ P (fun y => vz (fst y)) /\ P (fun y => vx (snd y)) /\ P (fun y => vy (snd y)) /\ P (fun y => vz (snd y)).

Lemma field_bounds A H V : 0 <= A < PI / 2 -> 0 <= H <= 6200000 -> 0 <= V -> exists M L, 0 <= M /\ 0 <= L /\
  six (fun c => forall y z q r, Box A H V y -> Box A H V z -> Rabs (c (G y q)) <= M + n1 q /\ Rabs (c (G y q) - c (G z r)) <= L * d6 y z + n1 (vsub q r)) /\
  (forall y z, Box A H V y -> Box A H V z -> n1 (grav y) <= M /\ n1 (vsub (grav y) (grav z)) <= L * d6 y z).
Proof.
  intros HA HH HV.
  assert (K : forall l : list (vec3 * vec3 -> R), List.Forall (LB _ (Box A H V) d6) l -> exists M L, 0 <= M /\ 0 <= L /\
    List.Forall (fun f => forall x y, Box A H V x -> Box A H V y -> Rabs (f x) <= M /\ Rabs (f x - f y) <= L * d6 x y) l).
  { intros l. induction 1 as [|f l (M & L & M0 & L0 & Hf) _ (M' & L' & M0' & L0' & IH)]; [exists 0, 0; repeat split; auto; lra|].
    exists (M + M'), (L + L'). split; [lra|]. split; [lra|]. constructor.
    - intros x y Dx Dy. destruct (Hf x y Dx Dy). pose proof (d6_pos x y). split; nra.
    - eapply List.Forall_impl; [|exact IH]. intros g Hg x y Dx Dy. destruct (Hg x y Dx Dy). pose proof (d6_pos x y). split; nra. }
  destruct (K (lat_rate :: lon_rate :: (fun y => - vz (snd y)) ::
      (fun y => - (2 * gp_wE * sin (vx (fst y)) * vy (snd y)) + lat_rate y * vz (snd y) - lon_rate y * sin (vx (fst y)) * vy (snd y)) ::
      (fun y => 2 * gp_wE * sin (vx (fst y)) * vx (snd y) + 2 * gp_wE * cos (vx (fst y)) * vz (snd y) + lon_rate y * sin (vx (fst y)) * vx (snd y) + lon_rate y * cos (vx (fst y)) * vz (snd y)) ::
      (fun y => - (2 * gp_wE * cos (vx (fst y)) * vy (snd y)) - lon_rate y * cos (vx (fst y)) * vy (snd y) - lat_rate y * vx (snd y)) ::
      (fun y => - (808/100) * (1/1000000) * (vz (fst y)/1000) * sin (2 * vx (fst y))) ::
      (fun y => g_ell (sin (vx (fst y)) * sin (vx (fst y))) * g_alt (sin (vx (fst y)) * sin (vx (fst y))) (vz (fst y))) :: nil)%list) as (M & L & M0 & L0 & F).
  { assert (X1 : LB _ (Box A H V) d6 lat_rate) by (apply lb_lat_rate; assumption). assert (X2 : LB _ (Box A H V) d6 lon_rate) by (apply lb_lon_rate; assumption).
    assert (X3 := lb_gN A H V). assert (X4 := lb_gD A H V).
    repeat match goal with X : _ -> _ |- _ => match type of X with ?P -> LB _ _ _ _ => specialize (X ltac:(assumption)) | ?P -> _ -> LB _ _ _ _ => specialize (X ltac:(assumption)) | ?P -> _ -> _ -> LB _ _ _ _ => specialize (X ltac:(assumption)) end end.
    repeat constructor; try assumption; repeat first [assumption | apply lb_lat | apply lb_h | apply lb_vN | apply lb_vE | apply lb_vD | apply lb_s | apply lb_c | apply lb_const | apply lb_add | apply lb_sub | apply lb_mul | apply lb_opp]; assumption. }
  assert (F1 := List.Forall_inv F). apply List.Forall_inv_tail in F. cbv beta in F1.
  assert (F2 := List.Forall_inv F). apply List.Forall_inv_tail in F. cbv beta in F2.
  assert (F3 := List.Forall_inv F). apply List.Forall_inv_tail in F. cbv beta in F3.
  assert (F4 := List.Forall_inv F). apply List.Forall_inv_tail in F. cbv beta in F4.
  assert (F5 := List.Forall_inv F). apply List.Forall_inv_tail in F. cbv beta in F5.
  assert (F6 := List.Forall_inv F). apply List.Forall_inv_tail in F. cbv beta in F6.
  assert (F7 := List.Forall_inv F). apply List.Forall_inv_tail in F. cbv beta in F7.
  assert (F8 := List.Forall_inv F). apply List.Forall_inv_tail in F. cbv beta in F8.
  exists (M + M), (L + L). split; [lra|]. split; [lra|].
  assert (P0 : forall (f : vec3 * vec3 -> R) (c : vec3 * vec3 -> R), (forall x y, Box A H V x -> Box A H V y -> Rabs (f x) <= M /\ Rabs (f x - f y) <= L * d6 x y) ->
    (exists p : vec3 -> R, (forall q, Rabs (p q) <= n1 q) /\ (forall q r, p q - p r = p (vsub q r)) /\ forall y q, c (G y q) = p q + f y) ->
    forall y z q r, Box A H V y -> Box A H V z -> Rabs (c (G y q)) <= M + M + n1 q /\ Rabs (c (G y q) - c (G z r)) <= (L + L) * d6 y z + n1 (vsub q r)).
  { intros f c Hf (p & P1 & P2 & P3) y z q r Dy Dz. destruct (Hf y z Dy Dz) as (B1 & B2). rewrite !P3. pose proof (d6_pos y z). split.
    - eapply Rle_trans; [apply Rabs_triang|]. pose proof (P1 q). lra.
    - replace (p q + f y - (p r + f z)) with ((p q - p r) + (f y - f z)) by ring. rewrite P2. eapply Rle_trans; [apply Rabs_triang|]. pose proof (P1 (vsub q r)). nra. }
  assert (Z : exists p : vec3 -> R, (forall q, Rabs (p q) <= n1 q) /\ (forall q r, p q - p r = p (vsub q r)) /\ forall q, p q = 0).
  { exists (fun _ => 0). split; [intros; rewrite Rabs_R0; apply n1_pos|]. split; intros; ring. }
  assert (Zx : (forall q, Rabs (vx q) <= n1 q) /\ (forall q r, vx q - vx r = vx (vsub q r))).
  { split; [|reflexivity]. intros q. unfold n1. pose proof (Rabs_pos (vy q)). pose proof (Rabs_pos (vz q)). lra. }
  assert (Zy : (forall q, Rabs (vy q) <= n1 q) /\ (forall q r, vy q - vy r = vy (vsub q r))).
  { split; [|reflexivity]. intros q. unfold n1. pose proof (Rabs_pos (vx q)). pose proof (Rabs_pos (vz q)). lra. }
  assert (Zz : (forall q, Rabs (vz q) <= n1 q) /\ (forall q r, vz q - vz r = vz (vsub q r))).
  { split; [|reflexivity]. intros q. unfold n1. pose proof (Rabs_pos (vx q)). pose proof (Rabs_pos (vy q)). lra. }
  destruct Z as (p0 & Z1 & Z2 & Z3).
  assert (Q0 : forall f c, (forall x y, Box A H V x -> Box A H V y -> Rabs (f x) <= M /\ Rabs (f x - f y) <= L * d6 x y) -> (forall y q, c (G y q) = f y) ->
    forall y z q r, Box A H V y -> Box A H V z -> Rabs (c (G y q)) <= M + M + n1 q /\ Rabs (c (G y q) - c (G z r)) <= (L + L) * d6 y z + n1 (vsub q r)).
  { intros f c Hf E. apply (P0 f c Hf). exists p0. repeat split; auto. intros y q. rewrite E, Z3. ring. }
  split.
  - split; [|split; [|split; [|split; [|split]]]].
    + apply (Q0 _ (fun y => vx (fst y)) F1). reflexivity.
    + apply (Q0 _ (fun y => vy (fst y)) F2). reflexivity.
    + apply (Q0 _ (fun y => vz (fst y)) F3). reflexivity.
    + apply (P0 _ (fun y => vx (snd y)) F4). exists vx. split; [apply Zx|]. split; [apply Zx|]. intros y q. unfold G, dyn, v3zero. cbn [vx vy vz fst snd]. field.
    + apply (P0 _ (fun y => vy (snd y)) F5). exists vy. split; [apply Zy|]. split; [apply Zy|]. intros y q. unfold G, dyn, v3zero. cbn [vx vy vz fst snd]. field.
    + apply (P0 _ (fun y => vz (snd y)) F6). exists vz. split; [apply Zz|]. split; [apply Zz|]. intros y q. unfold G, dyn, v3zero. cbn [vx vy vz fst snd]. field.
  - intros y z Dy Dz. destruct (F7 y z Dy Dz). destruct (F8 y z Dy Dz). unfold n1, grav, vsub. cbn [vx vy vz]. rewrite Rminus_eq_0, Rabs_R0. split; lra.
Qed.
