(** Accuracy of the attitude computed from integrated rates. *)
From Coq Require Import Reals ZArith List Lra Lia Psatz.
From Coquelicot Require Import Coquelicot.
From Verif Require Import Base BaseVec SpecRot SpecEarth SpecStrapdown SpecTurn ModelStrapdown
  ProofVec ProofAttitude2 ProofStrapdown ProofStrapdownFloat ProofLip ProofConverge.
Import ListNotations.
Open Scope R_scope.

(** ** Calculus of vectors *)
Lemma vd_dot a b t a' b' : vec_derive a t a' -> vec_derive b t b' -> is_derive (fun s => dot (a s) (b s)) t (dot a' (b t) + dot (a t) b').
Proof.
  intros (A1 & A2 & A3) (B1 & B2 & B3). unfold dot.
  replace (vx a' * vx (b t) + vy a' * vy (b t) + vz a' * vz (b t) + (vx (a t) * vx b' + vy (a t) * vy b' + vz (a t) * vz b')) with
    (((vx a' * vx (b t) + vx (a t) * vx b') + (vy a' * vy (b t) + vy (a t) * vy b')) + (vz a' * vz (b t) + vz (a t) * vz b')) by ring.
  apply (is_derive_plus (fun s => vx (a s) * vx (b s) + vy (a s) * vy (b s)) (fun s => vz (a s) * vz (b s))).
  1: apply (is_derive_plus (fun s => vx (a s) * vx (b s)) (fun s => vy (a s) * vy (b s))).
  1: apply (is_derive_mult (fun s => vx (a s)) (fun s => vx (b s)) t _ _ A1 B1); intros; apply Rmult_comm.
  1: apply (is_derive_mult (fun s => vy (a s)) (fun s => vy (b s)) t _ _ A2 B2); intros; apply Rmult_comm.
  apply (is_derive_mult (fun s => vz (a s)) (fun s => vz (b s)) t _ _ A3 B3); intros; apply Rmult_comm.
Qed.
Lemma d_pair f g f' g' t : forall p q p' q', is_derive f t f' -> is_derive g t g' -> is_derive p t p' -> is_derive q t q' ->
  is_derive (fun s => f s * q s - g s * p s) t (f' * q t + f t * q' - (g' * p t + g t * p')).
Proof.
  intros p q p' q' F G P Q.
  apply (is_derive_minus (fun s => f s * q s) (fun s => g s * p s)).
  - apply (is_derive_mult f q t _ _ F Q); intros; apply Rmult_comm.
  - apply (is_derive_mult g p t _ _ G P); intros; apply Rmult_comm.
Qed.
Lemma vd_cross a b t a' b' : vec_derive a t a' -> vec_derive b t b' -> vec_derive (fun s => cross (a s) (b s)) t (vadd (cross a' (b t)) (cross (a t) b')).
Proof.
  intros (A1 & A2 & A3) (B1 & B2 & B3). unfold cross, vadd. cbn. split; [|split]; cbn.
  - replace (vy a' * vz (b t) - vz a' * vy (b t) + (vy (a t) * vz b' - vz (a t) * vy b')) with (vy a' * vz (b t) + vy (a t) * vz b' - (vz a' * vy (b t) + vz (a t) * vy b')) by ring.
    apply (d_pair (fun s => vy (a s)) (fun s => vz (a s)) _ _ _ (fun s => vy (b s)) (fun s => vz (b s))); assumption.
  - replace (vz a' * vx (b t) - vx a' * vz (b t) + (vz (a t) * vx b' - vx (a t) * vz b')) with (vz a' * vx (b t) + vz (a t) * vx b' - (vx a' * vz (b t) + vx (a t) * vz b')) by ring.
    apply (d_pair (fun s => vz (a s)) (fun s => vx (a s)) _ _ _ (fun s => vz (b s)) (fun s => vx (b s))); assumption.
  - replace (vx a' * vy (b t) - vy a' * vx (b t) + (vx (a t) * vy b' - vy (a t) * vx b')) with (vx a' * vy (b t) + vx (a t) * vy b' - (vy a' * vx (b t) + vy (a t) * vx b')) by ring.
    apply (d_pair (fun s => vx (a s)) (fun s => vy (a s)) _ _ _ (fun s => vx (b s)) (fun s => vy (b s))); assumption.
Qed.
(** The fixed vector [v] seen from the turning body turns backwards. *)
Lemma d_lin3 f g h f' g' h' t a b c : is_derive f t f' -> is_derive g t g' -> is_derive h t h' ->
  is_derive (fun s => f s * a + g s * b + h s * c) t (f' * a + g' * b + h' * c).
Proof.
  intros F G H. apply (is_derive_plus (fun s => f s * a + g s * b) (fun s => h s * c)).
  1: apply (is_derive_plus (fun s => f s * a) (fun s => g s * b)).
  all: match goal with |- is_derive (fun s => ?k s * ?x) _ _ => apply (is_derive_ext (fun s => scal x (k s))); [intros; apply Rmult_comm|] end.
  - replace (f' * a) with (scal a f') by apply Rmult_comm. apply is_derive_scal, F.
  - replace (g' * b) with (scal b g') by apply Rmult_comm. apply is_derive_scal, G.
  - replace (h' * c) with (scal c h') by apply Rmult_comm. apply is_derive_scal, H.
Qed.
Lemma isd_eq (f : R -> R) (t x y : R) : is_derive f t x -> x = y -> is_derive f t y.
Proof. intros H <-. exact H. Qed.
Lemma vd_body C t w W v : (forall u, mvmul W u = cross w u) -> mat_derive C t (mmul (C t) W) ->
  vec_derive (fun s => mvmul (mtr (C s)) v) t (vneg (cross w (mvmul (mtr (C t)) v))).
Proof.
  intros HW ((D11 & D12 & D13) & (D21 & D22 & D23) & (D31 & D32 & D33)). apply cross_skw in HW. subst W. cbn in *.
  split; [|split]; cbn.
  - eapply isd_eq; [exact (d_lin3 _ _ _ _ _ _ _ (vx v) (vy v) (vz v) D11 D21 D31)|cbn; ring].
  - eapply isd_eq; [exact (d_lin3 _ _ _ _ _ _ _ (vx v) (vy v) (vz v) D12 D22 D32)|cbn; ring].
  - eapply isd_eq; [exact (d_lin3 _ _ _ _ _ _ _ (vx v) (vy v) (vz v) D13 D23 D33)|cbn; ring].
Qed.
Lemma vd_rotate n k u t : dot n n = 1 -> vec_derive (fun s => rotate n (- (k * s)) u) t (vneg (cross (vscale k n) (rotate n (- (k * t)) u))).
Proof.
  destruct n as [a b c], u as [x y z]. unfold dot. cbn. intros E. assert (Ec : c * c = 1 - a * a - b * b) by lra.
  unfold rotate, vadd, vscale, cross, vneg, dot. split; [|split]; cbn; auto_derive; auto; rewrite ?cos_neg, ?sin_neg; set (C := cos _); set (S := sin _); clearbody C S; ring [Ec].
Qed.
Lemma vd_shift c t0 s d : vec_derive c (t0 + s) d -> vec_derive (fun s => c (t0 + s)) s d.
Proof.
  intros (D1 & D2 & D3). split; [|split].
  - eapply isd_eq; [apply (is_derive_comp (fun t => vx (c t)) (fun s => t0 + s) s _ 1 D1); auto_derive; [exact I|ring]|apply Rmult_1_l].
  - eapply isd_eq; [apply (is_derive_comp (fun t => vy (c t)) (fun s => t0 + s) s _ 1 D2); auto_derive; [exact I|ring]|apply Rmult_1_l].
  - eapply isd_eq; [apply (is_derive_comp (fun t => vz (c t)) (fun s => t0 + s) s _ 1 D3); auto_derive; [exact I|ring]|apply Rmult_1_l].
Qed.
Lemma vd_ext a b t d : (forall s, a s = b s) -> vec_derive a t d -> vec_derive b t d.
Proof. intros E (D1 & D2 & D3). split; [|split]; eapply is_derive_ext; try (intros s; rewrite <- E; reflexivity); assumption. Qed.

(** ** Sizes *)
Lemma norm_cross a b : norm (cross a b) <= norm a * norm b.
Proof.
  pose proof (norm_nonneg a). pose proof (norm_nonneg b). apply Rsqr_incr_0_var; [|apply Rmult_le_pos; assumption]. unfold Rsqr.
  rewrite norm_sq. replace (norm a * norm b * (norm a * norm b)) with (dot a a * dot b b) by (rewrite <- !norm_sq; ring).
  assert (dot (cross a b) (cross a b) = dot a a * dot b b - dot a b * dot a b) by vec_ring. pose proof (Rle_0_sqr (dot a b)) as Q. unfold Rsqr in Q. lra.
Qed.
Lemma norm_le_dot x c : 0 <= c -> (forall u, Rabs (dot u x) <= c * norm u) -> norm x <= c.
Proof.
  intros Hc H. specialize (H x). rewrite <- norm_sq in H. pose proof (norm_nonneg x) as N. rewrite Rabs_right in H by nra.
  destruct (Req_dec (norm x) 0); [lra|]. apply Rmult_le_reg_r with (norm x); lra.
Qed.
Lemma rotation_norm A v : is_rotation A -> norm (mvmul A v) = norm v.
Proof. intros [H _]. unfold norm. now rewrite H. Qed.
Lemma rotation_norm_t A v : is_rotation A -> norm (mvmul (mtr A) v) = norm v.
Proof.
  intros HR. destruct (rotation_matrix A HR) as (E & _). rewrite <- (rotation_norm A (mvmul (mtr A) v) HR), <- mvmul_mmul, E, mvmul_id. reflexivity.
Qed.
Lemma rotate_norm n t v : dot n n = 1 -> norm (rotate n t v) = norm v.
Proof. intros Hn. rewrite <- axis_matrix_rotate. apply rotation_norm, axis_matrix_rotation, Hn. Qed.

Lemma d_id_mul a t : is_derive (fun s => s * a) t a. Proof. auto_derive; [exact I|ring]. Qed.
Lemma dot_vsub u a b : dot u (vsub a b) = dot u a - dot u b. Proof. vec_ring. Qed.
Lemma dot_vscale u k a : dot u (vscale k a) = k * dot u a. Proof. vec_ring. Qed.
Lemma cross_0 y : cross v3zero y = v3zero. Proof. vec_ring. Qed.
Lemma dot_0 y : dot y v3zero = 0. Proof. vec_ring. Qed.
Lemma dot_diff u A a b : dot u (mvmul (mtr A) (vsub (mvmul A a) b)) = dot u (mvmul (mmul (mtr A) A) a) - dot u (mvmul (mtr A) b). Proof. vec_ring. Qed.
Lemma F_alg Wv Y D om k : dot (vneg (cross k Wv)) Y + dot Wv (vneg (cross om Y)) - (dot (vneg (cross k Wv)) (cross D Y) + dot Wv (vadd (cross (vsub k om) Y) (cross D (vneg (cross om Y))))) =
  dot (cross k Wv) (cross D Y) + dot Wv (cross D (cross om Y)). Proof. vec_ring. Qed.

(** ** One interval *)
Section Interval.
Variables (T M L : R) (C : R -> mat3) (w th : R -> vec3).
Hypotheses (HT : turning T C w th) (HS : smooth_rate T M L w) (HL : 0 <= L) (HM : 0 <= M).
Variables (t h : R).
Hypotheses (Ht : 0 <= t) (Hh : 0 < h) (Hth : t + h <= T).
Let d := vsub (th (t + h)) (th t).
Let k := vscale (/ h) d.
Let De (s : R) := vsub (vscale s k) (vsub (th (t + s)) (th t)).

Lemma dot_integral u a b : 0 <= a -> 0 <= b -> a + b <= T -> exists x, a <= x <= a + b /\ dot u (vsub (th (a + b)) (th a)) = b * dot u (w x).
Proof.
  intros Ha Hb Hab. destruct (mvt (fun s => dot u (th s)) (fun s => dot u (w s)) a b Hb) as (x & Hx & E).
  - intros s Hs. destruct (HT s ltac:(lra)) as (_ & _ & D). eapply isd_eq; [apply (vd_dot (fun _ => u) th s v3zero (w s)); [|exact D]|].
    + split; [|split]; cbn; apply @is_derive_const.
    + unfold dot. cbn. ring.
  - exists x. split; [exact Hx|]. cbv beta in E. rewrite <- E. unfold dot, vsub. cbn. ring.
Qed.
Lemma De_small s : 0 <= s <= h -> norm (De s) <= L * (s * (h - s)).
Proof.
  intros Hs. apply norm_le_dot; [apply Rmult_le_pos; [exact HL|apply Rmult_le_pos; lra]|]. intros u.
  destruct (dot_integral u t s Ht ltac:(lra) ltac:(lra)) as (x & Hx & E1).
  destruct (dot_integral u (t + s) (h - s) ltac:(lra) ltac:(lra) ltac:(lra)) as (y & Hy & E2).
  replace (t + s + (h - s)) with (t + h) in * by ring.
  assert (E : dot u (De s) = s * (h - s) / h * dot u (vsub (w y) (w x))).
  { rewrite dot_vsub.
    replace (s * (h - s) / h * (dot u (w y) - dot u (w x))) with (s / h * ((h - s) * dot u (w y)) - (h - s) / h * (s * dot u (w x))) by (field; lra).
    rewrite <- E1, <- E2. unfold De, k, d, dot, vsub, vscale. cbn. field. lra. }
  rewrite E, Rabs_mult, Rabs_right by (apply Rle_ge; unfold Rdiv; apply Rmult_le_pos; [nra|left; now apply Rinv_0_lt_compat]).
  pose proof (cauchy u (vsub (w y) (w x))) as Cs. destruct HS as [_ LS]. specialize (LS x y ltac:(lra) ltac:(lra)).
  pose proof (norm_nonneg u) as Nu.
  assert (B : norm (vsub (w y) (w x)) <= L * h) by nra.
  replace (L * (s * (h - s)) * norm u) with (s * (h - s) / h * (norm u * (L * h))) by (field; lra).
  apply Rmult_le_compat_l; [unfold Rdiv; apply Rmult_le_pos; [nra|left; now apply Rinv_0_lt_compat]|]. nra.
Qed.
Lemma k_small : norm k <= M.
Proof.
  apply norm_le_dot; [exact HM|]. intros u. destruct (dot_integral u t h Ht ltac:(lra) Hth) as (x & Hx & E).
  replace (dot u k) with (dot u (w x)).
  - destruct HS as [B _]. specialize (B x ltac:(lra)). pose proof (cauchy u (w x)). pose proof (norm_nonneg u). nra.
  - unfold k. rewrite dot_vscale. unfold d. rewrite E. field. lra.
Qed.

Hypothesis Hd : d <> v3zero.
Let n := vscale (/ norm d) d.
Lemma kn : vscale (norm d / h) n = k.
Proof. pose proof (norm_pos d Hd). unfold k, n, vscale. cbn. apply v3_eq; field; lra. Qed.
Let Wd u s := rotate n (- (norm d / h * s)) u.
Let Yd v s := mvmul (mtr (C (t + s))) v.
Let F u v s := dot (Wd u s) (Yd v s) - dot (Wd u s) (cross (De s) (Yd v s)).

Lemma F_derive u v s : 0 <= s <= h ->
  is_derive (F u v) s (dot (cross k (Wd u s)) (cross (De s) (Yd v s)) + dot (Wd u s) (cross (De s) (cross (w (t + s)) (Yd v s)))).
Proof.
  intros Hs. destruct (HT (t + s) ltac:(lra)) as (_ & (Wm & HW & DC) & Dth).
  assert (DW : vec_derive (Wd u) s (vneg (cross k (Wd u s)))).
  { unfold Wd. rewrite <- kn. apply vd_rotate. apply ProofStrapdown.unit_axis, Hd. }
  assert (DY : vec_derive (Yd v) s (vneg (cross (w (t + s)) (Yd v s)))).
  { unfold Yd. apply (vd_shift (fun x => mvmul (mtr (C x)) v)). apply vd_body with (W := Wm); assumption. }
  assert (DD : vec_derive De s (vsub k (w (t + s)))).
  { apply vd_shift in Dth. destruct Dth as (D1 & D2 & D3). unfold De. split; [|split]; cbn [vx vy vz vsub vscale].
    - apply (is_derive_minus (fun s => s * vx k) (fun s => vx (th (t + s)) - vx (th t))); [apply d_id_mul|].
      eapply isd_eq; [apply (is_derive_minus (fun s => vx (th (t + s))) (fun _ => vx (th t)) s _ zero D1); apply @is_derive_const|apply Rminus_0_r].
    - apply (is_derive_minus (fun s => s * vy k) (fun s => vy (th (t + s)) - vy (th t))); [apply d_id_mul|].
      eapply isd_eq; [apply (is_derive_minus (fun s => vy (th (t + s))) (fun _ => vy (th t)) s _ zero D2); apply @is_derive_const|apply Rminus_0_r].
    - apply (is_derive_minus (fun s => s * vz k) (fun s => vz (th (t + s)) - vz (th t))); [apply d_id_mul|].
      eapply isd_eq; [apply (is_derive_minus (fun s => vz (th (t + s))) (fun _ => vz (th t)) s _ zero D3); apply @is_derive_const|apply Rminus_0_r]. }
  pose proof (vd_dot _ _ _ _ _ DW DY) as P1.
  pose proof (vd_dot _ _ _ _ _ DW (vd_cross _ _ _ _ _ DD DY)) as P2.
  eapply isd_eq; [exact (is_derive_minus (fun s => dot (Wd u s) (Yd v s)) (fun s => dot (Wd u s) (cross (De s) (Yd v s))) s _ _ P1 P2)|].
  apply F_alg.
Qed.
Lemma F_bound u v : Rabs (F u v h - F u v 0) <= M * L * (h * h * h) / 3 * (norm u * norm v).
Proof.
  set (K := M * L * (norm u * norm v)).
  assert (HK : forall s, 0 <= s <= h -> Rabs (dot (cross k (Wd u s)) (cross (De s) (Yd v s)) + dot (Wd u s) (cross (De s) (cross (w (t + s)) (Yd v s)))) <= 2 * K * (s * (h - s))).
  { intros s Hs. pose proof (norm_nonneg u). pose proof (norm_nonneg v). destruct (HT (t + s) ltac:(lra)) as (HR & _).
    assert (NW : norm (Wd u s) = norm u) by (apply rotate_norm, ProofStrapdown.unit_axis, Hd).
    assert (NY : norm (Yd v s) = norm v) by (apply rotation_norm_t, HR).
    pose proof (De_small s Hs) as ND. pose proof k_small as Nk. destruct HS as [B _]. specialize (B (t + s) ltac:(lra)).
    eapply Rle_trans; [apply Rabs_triang|].
    replace (2 * K * (s * (h - s))) with ((M * norm u) * ((L * (s * (h - s))) * norm v) + norm u * ((L * (s * (h - s))) * (M * norm v))) by (unfold K; ring).
    apply Rplus_le_compat.
    - eapply Rle_trans; [apply cauchy|]. apply Rmult_le_compat; try apply norm_nonneg; (eapply Rle_trans; [apply norm_cross|]); rewrite ?NW, ?NY; apply Rmult_le_compat_r; assumption.
    - eapply Rle_trans; [apply cauchy|]. rewrite NW. apply Rmult_le_compat_l; [assumption|]. eapply Rle_trans; [apply norm_cross|].
      apply Rmult_le_compat; try apply norm_nonneg; [assumption|]. eapply Rle_trans; [apply norm_cross|]. rewrite NY. apply Rmult_le_compat_r; assumption. }
  assert (Hp : forall e : R, e = 1 \/ e = -1 -> e * (F u v h - F u v 0) <= K * (h * h * h) / 3).
  { intros e He.
    destruct (mvt (fun s => K * (h * s * s - 2 / 3 * (s * s * s)) - e * F u v s)
      (fun s => 2 * K * (s * (h - s)) - e * (dot (cross k (Wd u s)) (cross (De s) (Yd v s)) + dot (Wd u s) (cross (De s) (cross (w (t + s)) (Yd v s))))) 0 h ltac:(lra)) as (x & Hx & E).
    - intros s Hs. apply (is_derive_minus (fun s => K * (h * s * s - 2 / 3 * (s * s * s))) (fun s => e * F u v s)).
      + auto_derive; [exact I|field].
      + apply is_derive_scal, F_derive. lra.
    - rewrite Rplus_0_l in *. specialize (HK x Hx). set (X := dot (cross k _) _ + dot _ _) in *. clearbody X. apply Rabs_le_between in HK.
      assert (0 <= 2 * K * (x * (h - x)) - e * X) by (destruct He; subst e; lra). assert (0 <= h * (2 * K * (x * (h - x)) - e * X)) by (apply Rmult_le_pos; lra).
      replace (K * (h * h * h) / 3) with (K * (h * h * h - 2 / 3 * (h * h * h))) by field. lra. }
  replace (M * L * (h * h * h) / 3 * (norm u * norm v)) with (K * (h * h * h) / 3) by (unfold K; field).
  pose proof (Hp 1 (or_introl eq_refl)). pose proof (Hp (-1) (or_intror eq_refl)). apply Rabs_le. lra.
Qed.
(** The computed rotation over the interval against the true one. *)
Lemma interval x : norm (vsub (mvmul (C t) (rotvec d x)) (mvmul (C (t + h)) x)) <= M * L * (h * h * h) / 3 * norm x.
Proof.
  destruct (HT t ltac:(lra)) as (R0 & _). destruct (HT (t + h) ltac:(lra)) as (R1 & _).
  destruct (rotation_matrix _ R0) as (_ & E0 & _). destruct (rotation_matrix _ R1) as (_ & E1 & _).
  assert (Pc : 0 <= M * L * (h * h * h) / 3) by (assert (0 <= M * L) by nra; assert (0 < h * h * h) by (repeat apply Rmult_lt_0_compat; lra); nra).
  rewrite <- (rotation_norm_t (C t) _ R0). apply norm_le_dot; [apply Rmult_le_pos; [exact Pc|apply norm_nonneg]|]. intros u.
  pose proof (F_bound u (mvmul (C (t + h)) x)) as B. rewrite (rotation_norm _ _ R1) in B.
  replace (dot u (mvmul (mtr (C t)) (vsub (mvmul (C t) (rotvec d x)) (mvmul (C (t + h)) x)))) with (F u (mvmul (C (t + h)) x) h - F u (mvmul (C (t + h)) x) 0); [lra|].
  assert (D0 : De 0 = v3zero) by (unfold De; rewrite Rplus_0_r; unfold vsub, vscale, v3zero; cbn [vx vy vz]; apply v3_eq; ring).
  assert (D1 : De h = v3zero) by (unfold De, k, d, vsub, vscale, v3zero; cbn; apply v3_eq; field; lra).
  unfold F. rewrite D0, D1, !cross_0, !dot_0, !Rminus_0_r. unfold Wd, Yd. rewrite Rplus_0_r, <- mvmul_mmul, E1, mvmul_id.
  replace (norm d / h * h) with (norm d) by (field; lra). rewrite Rmult_0_r, Ropp_0, rotate_0.
  rewrite dot_diff.
  rewrite E0, mvmul_id. f_equal. unfold rotvec. fold n. unfold rotate. rewrite cos_neg, sin_neg. unfold dot, vadd, vscale, cross. cbn. ring.
Qed.
End Interval.

(** ** A history *)
Lemma att_history T M L C w th eta : turning T C w th -> smooth_rate T M L w -> 0 <= L -> 0 <= M ->
  forall l t n n' A e, 0 <= t -> gyro_samples eta th t l -> t + span l <= T -> RB2N n = Some A -> run (Some n) (map fst l) = Ret (Some n') ->
  0 <= e -> is_rotation A -> (forall v, norm (vsub (mvmul A v) (mvmul (C t) v)) <= e * norm v) ->
  exists A', RB2N n' = Some A' /\ is_rotation A' /\ forall v, norm (vsub (mvmul A' v) (mvmul (C (t + span l)) v)) <= (e + M * L * (eta * eta) * span l / 3) * norm v.
Proof.
  intros HT HS HL HM. induction l as [|[m h] l IH]; intros t n n' A e Ht HG HTl HA E He RA B.
  - cbn in E. inversion E; subst n'. exists A. split; [exact HA|]. split; [exact RA|]. intros v. unfold span. cbn. rewrite Rplus_0_r. specialize (B v). replace (e + M * L * (eta * eta) * 0 / 3) with e by field. exact B.
  - destruct HG as ([Hh Hhe] & Hd & Hnz & HG). cbn [map fst] in E. apply run_step in E as [_ E]. unfold span in HTl. cbn [map snd fold_right] in HTl. fold (span l) in HTl.
    assert (Sp : 0 <= span l). { clear - HG. revert t h HG. induction l as [|[m' h'] l IH]; intros t h HG; [unfold span; cbn; lra|]. destruct HG as ([? ?] & _ & _ & HG). specialize (IH _ _ HG). unfold span in *. cbn. lra. }
    rewrite HA in E. cbn [next_att] in E. rewrite (updateAttitude_ok A _ Hnz) in E.
    set (Bm := axis_matrix _ _) in E. assert (RB : is_rotation Bm) by (apply axis_matrix_rotation, ProofStrapdown.unit_axis, Hnz).
    assert (VB : forall v, mvmul Bm v = rotvec (s_dTh m) v) by (intros v; unfold Bm; rewrite axis_matrix_rotate; reflexivity).
    assert (Hc : M * L * (h * h * h) / 3 <= M * L * (eta * eta) * h / 3).
    { assert (0 <= M * L) by nra. assert (h * h * h <= eta * eta * h) by (apply Rmult_le_compat_r; nra). nra. }
    assert (HML : 0 <= M * L * (eta * eta)) by (apply Rmult_le_pos; nra).
    set (e' := e + M * L * (eta * eta) * h / 3).
    match type of E with run (Some ?n1) _ = _ => destruct (IH (t + h) n1 n' (mmul A Bm) e' ltac:(lra) HG ltac:(lra) eq_refl E) as (A' & HA' & RA' & B') end.
    + unfold e'. nra.
    + apply rotation_mmul; assumption.
    + intros v. rewrite mvmul_mmul, VB.
      replace (vsub (mvmul A (rotvec (s_dTh m) v)) (mvmul (C (t + h)) v)) with
        (vadd (vsub (mvmul A (rotvec (s_dTh m) v)) (mvmul (C t) (rotvec (s_dTh m) v))) (vsub (mvmul (C t) (rotvec (s_dTh m) v)) (mvmul (C (t + h)) v))) by vec_ring.
      eapply Rle_trans; [apply norm_tri|]. pose proof (B (rotvec (s_dTh m) v)) as B1. unfold rotvec in B1 at 3. rewrite rotate_norm in B1 by (apply ProofStrapdown.unit_axis, Hnz).
      rewrite Hd in Hnz. pose proof (interval T M L C w th HT HS HL HM t h Ht Hh ltac:(lra) Hnz v) as B2. rewrite <- Hd in B2.
      pose proof (norm_nonneg v). unfold e'. nra.
    + exists A'. split; [exact HA'|]. split; [exact RA'|]. intros v. specialize (B' v). unfold span. cbn [map snd fold_right]. fold (span l). rewrite <- Rplus_assoc.
      replace (e + M * L * (eta * eta) * (h + span l) / 3) with (e' + M * L * (eta * eta) * span l / 3) by (unfold e'; field). exact B'.
Qed.

(** ** Coning *)
Lemma coning_rotation e W t : is_rotation (coning e W t).
Proof.
  set (n := V3 (cos (W * t)) (sin (W * t)) 0). assert (Hn : dot n n = 1) by (unfold n, dot; cbn; pose proof (sin2_cos2 (W * t)) as S; unfold Rsqr in S; lra).
  replace (coning e W t) with (axis_matrix n e); [apply axis_matrix_rotation, Hn|].
  unfold coning. fold n. rewrite <- !axis_matrix_rotate. destruct (axis_matrix n e). unvec. apply m3_eq; ring.
Qed.
Lemma coning_entries e W t : coning e W t =
  M3 (cos e + (1 - cos e) * (cos (W * t) * cos (W * t))) ((1 - cos e) * (cos (W * t) * sin (W * t))) (sin e * sin (W * t))
     ((1 - cos e) * (cos (W * t) * sin (W * t))) (cos e + (1 - cos e) * (sin (W * t) * sin (W * t))) (- sin e * cos (W * t))
     (- sin e * sin (W * t)) (sin e * cos (W * t)) (cos e).
Proof. unfold coning, rotate, vadd, vscale, cross, dot, ex, ey, ez. cbn [vx vy vz]. apply m3_eq; ring. Qed.
Lemma d_cc W t a k : is_derive (fun t => a + k * (cos (W * t) * cos (W * t))) t (- (2 * W * k * (cos (W * t) * sin (W * t)))).
Proof. auto_derive; [exact I|ring]. Qed.
Lemma d_ss W t a k : is_derive (fun t => a + k * (sin (W * t) * sin (W * t))) t (2 * W * k * (cos (W * t) * sin (W * t))).
Proof. auto_derive; [exact I|ring]. Qed.
Lemma d_cs W t k : is_derive (fun t => k * (cos (W * t) * sin (W * t))) t (W * k * (cos (W * t) * cos (W * t) - sin (W * t) * sin (W * t))).
Proof. auto_derive; [exact I|ring]. Qed.
Lemma d_s W t k : is_derive (fun t => k * sin (W * t)) t (W * k * cos (W * t)).
Proof. auto_derive; [exact I|ring]. Qed.
Lemma d_c W t k : is_derive (fun t => k * cos (W * t)) t (- (W * k * sin (W * t))).
Proof. auto_derive; [exact I|ring]. Qed.
Lemma d_lin k t : is_derive (fun t => k * t) t k.
Proof. auto_derive; [exact I|ring]. Qed.
Lemma cone_derive e W t : mat_derive (coning e W) t (mmul (coning e W t) (skw (cone_rate e W t))).
Proof.
  pose proof (sin2_cos2 (W * t)) as S1. pose proof (sin2_cos2 e) as S2. unfold Rsqr in S1, S2.
  assert (E1 : sin (W * t) * sin (W * t) = 1 - cos (W * t) * cos (W * t)) by lra. assert (E2 : sin e * sin e = 1 - cos e * cos e) by lra. clear S1 S2.
  assert (Ex : forall (p : mat3 -> R) y, is_derive (fun s => p (M3 (cos e + (1 - cos e) * (cos (W * s) * cos (W * s))) ((1 - cos e) * (cos (W * s) * sin (W * s))) (sin e * sin (W * s))
     ((1 - cos e) * (cos (W * s) * sin (W * s))) (cos e + (1 - cos e) * (sin (W * s) * sin (W * s))) (- sin e * cos (W * s))
     (- sin e * sin (W * s)) (sin e * cos (W * s)) (cos e))) t y -> is_derive (fun s => p (coning e W s)) t y).
  { intros p y. apply is_derive_ext. intros s. now rewrite coning_entries. }
  rewrite (coning_entries e W t). unfold cone_rate, skw, mmul. cbn [vx vy vz m11 m12 m13 m21 m22 m23 m31 m32 m33].
  split; [|split]; (split; [|split]); unfold row1, row2, row3; cbn [vx vy vz m11 m12 m13 m21 m22 m23 m31 m32 m33];
    match goal with |- is_derive (fun t => ?p (_ t)) _ _ => apply (Ex p) end; cbn [m11 m12 m13 m21 m22 m23 m31 m32 m33].
  1: (eapply isd_eq; [apply d_cc|]).
  2: (eapply isd_eq; [apply d_cs|]).
  3: (eapply isd_eq; [apply d_s|]).
  4: (eapply isd_eq; [apply d_cs|]).
  5: (eapply isd_eq; [apply d_ss|]).
  6: (eapply isd_eq; [apply d_c|]).
  7: (eapply isd_eq; [apply d_s|]).
  8: (eapply isd_eq; [apply d_c|]).
  9: (eapply isd_eq; [apply @is_derive_const|]).
  9: change (@zero R_NormedModule) with 0.
  all: clear Ex; revert E1 E2; generalize (sin (W * t)) (cos (W * t)) (sin e) (cos e); intros S Cc s c E1 E2; first [ring|ring [E1 E2]].
Qed.
Lemma cone_turning e W T : turning T (coning e W) (cone_rate e W) (cone_angle e W).
Proof.
  intros t _. split; [apply coning_rotation|]. split.
  - exists (skw (cone_rate e W t)). split; [|apply cone_derive]. intros u. generalize (cone_rate e W t). intros r. unfold skw, mvmul, cross. cbn [vx vy vz m11 m12 m13 m21 m22 m23 m31 m32 m33]. apply v3_eq; ring.
  - unfold cone_angle, cone_rate, vec_derive. cbn [vx vy vz]. split; [|split].
    + eapply isd_eq; [apply d_c|ring].
    + eapply isd_eq; [apply d_s|ring].
    + apply d_lin.
Qed.
Lemma cone_period e W k : W <> 0 -> coning e W (INR k * (2 * PI / W)) = coning e W 0.
Proof.
  intros HW. unfold coning. replace (W * (INR k * (2 * PI / W))) with (W * 0 + 2 * INR k * PI) by (field; assumption). now rewrite cos_period, sin_period.
Qed.
Lemma cone_increment e W k : W <> 0 -> vsub (cone_angle e W (INR (S k) * (2 * PI / W))) (cone_angle e W (INR k * (2 * PI / W))) = V3 0 0 (- (2 * PI * (1 - cos e))).
Proof.
  intros HW. unfold cone_angle, vsub. cbn [vx vy vz].
  replace (W * (INR (S k) * (2 * PI / W))) with (0 + 2 * INR (S k) * PI) by (field; assumption).
  replace (W * (INR k * (2 * PI / W))) with (0 + 2 * INR k * PI) by (field; assumption). rewrite !cos_period, !sin_period, S_INR. apply v3_eq; try ring. field. assumption.
Qed.
Lemma cone_drift e W l n n' : cos e <> 1 -> RB2N n = Some (coning e W 0) ->
  (forall m, In m l -> s_dTh m = V3 0 0 (- (2 * PI * (1 - cos e)))) -> run (Some n) l = Ret (Some n') ->
  exists A, RB2N n' = Some A /\ forall v, mvmul A v = mvmul (coning e W 0) (rotate ez (- (INR (length l) * (2 * PI * (1 - cos e)))) v).
Proof.
  intros He HA Hl E. set (x := 2 * PI * (1 - cos e)) in *. assert (Hx : x <> 0) by (unfold x; pose proof PI_RGT_0; intros K; apply Rmult_integral in K; lra).
  assert (Hn : dot ez ez = 1) by (unfold dot; cbn; ring).
  assert (Hz : vscale (- x) ez = V3 0 0 (- x)) by (unfold vscale; cbn; apply v3_eq; ring).
  destruct (run_attitude l n n' _ E HA) as (B & HB & _ & VB); [intros m Hm; rewrite (Hl m Hm); intros K; injection K; lra|].
  exists (mmul (coning e W 0) B). split; [exact HB|]. intros v. rewrite mvmul_mmul. f_equal. rewrite VB.
  rewrite (fold_same l v (vscale (- x) ez)) by (intros m Hm; rewrite (Hl m Hm), Hz; reflexivity).
  transitivity (Nat.iter (length l) (rotate ez (- x)) v).
  - clear -Hx Hn. induction (length l) as [|k IH]; [reflexivity|]. cbn [Nat.iter nat_rect]. unfold Nat.iter in *. cbn [nat_rect]. rewrite IH. apply rotvec_axis; [exact Hn|lra].
  - rewrite iter_rotate by exact Hn. f_equal. ring.
Qed.
