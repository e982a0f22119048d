(** Gronwall's inequality for several functions, and the distance between two
    motions of the strapdown equations. *)
From Coq Require Import Reals List Lra Lia Psatz.
From Coquelicot Require Import Coquelicot.
From Verif Require Import Base BaseVec SpecRot SpecEarth SpecConverge ModelAttitude ModelGravity ModelNavUtils ModelStrapdown
  ProofVec ProofGravity ProofNavUtils ProofLip ProofConverge.
Import ListNotations.
Open Scope R_scope.

Fixpoint asum (gs : list (R -> R)) (t : R) : R := match gs with [] => 0 | g :: gs' => Rabs (g t) + asum gs' t end.
Fixpoint sqsum (gs : list (R -> R)) (t : R) : R := match gs with [] => 0 | g :: gs' => g t * g t + sqsum gs' t end.
Lemma asum_pos gs t : 0 <= asum gs t.
Proof. induction gs as [|g gs IH]; cbn; [lra|]. pose proof (Rabs_pos (g t)). lra. Qed.
Lemma sqsum_pos gs t : 0 <= sqsum gs t.
Proof. induction gs as [|g gs IH]; cbn; [lra|]. nra. Qed.
Lemma sq_abs x : x * x = Rabs x * Rabs x.
Proof. rewrite <- Rabs_mult. symmetry. apply Rabs_pos_eq. nra. Qed.
Lemma asum_sq gs t : asum gs t * asum gs t <= 2 ^ length gs * sqsum gs t.
Proof.
  induction gs as [|g gs IH]; cbn [asum sqsum length pow]; [lra|]. rewrite (sq_abs (g t)).
  pose proof (Rabs_pos (g t)). pose proof (asum_pos gs t). pose proof (pow_R1_Rle 2 (length gs) ltac:(lra)) as P.
  set (N := 2 ^ length gs) in *. set (a := Rabs (g t)) in *. set (E := asum gs t) in *. clearbody N a E.
  assert (S0 : 0 <= sqsum gs t) by apply sqsum_pos. set (S := sqsum gs t) in *. clearbody S. assert (D : 0 <= (a - E) * (a - E)) by apply Rle_0_sqr. assert (Q : a * a <= N * (a * a)) by (assert (0 <= a * a) by (apply Rmult_le_pos; assumption); nra). nra.
Qed.
Lemma sqsum_le gs t : sqsum gs t <= asum gs t * asum gs t.
Proof. induction gs as [|g gs IH]; cbn [asum sqsum]; [lra|]. rewrite (sq_abs (g t)). pose proof (Rabs_pos (g t)). pose proof (asum_pos gs t). nra. Qed.
Lemma sqsum_derive (gs : list (R -> R)) (t B : R) : (forall g : R -> R, In g gs -> exists D : R, is_derive g t D /\ Rabs D <= B) -> exists D : R, is_derive (sqsum gs) t D /\ D <= 2 * asum gs t * B.
Proof.
  induction gs as [|g gs IH]; intros H; cbn [asum sqsum].
  - exists 0. split; [|lra]. apply (is_derive_ext (fun _ => 0)); [reflexivity|]. apply (is_derive_const (K := R_AbsRing) (V := R_NormedModule) 0 t).
  - destruct (H g (or_introl eq_refl)) as (D1 & E1 & B1). destruct IH as (D2 & E2 & B2); [intros; apply H; now right|].
    exists ((D1 * g t + g t * D1) + D2). split.
    + apply (is_derive_plus (fun s => g s * g s) (sqsum gs)); [|exact E2]. apply (is_derive_mult g g t D1 D1 E1 E1 Rmult_comm).
    + assert (g t * D1 <= Rabs (g t) * B).
      { eapply Rle_trans; [apply Rle_abs|]. rewrite Rabs_mult. apply Rmult_le_compat_l; [apply Rabs_pos|exact B1]. } lra.
Qed.

Lemma gronwall (gs : list (R -> R)) (k eps T : R) : 0 <= k -> 0 <= eps -> 0 <= T ->
  (forall t (g : R -> R), 0 <= t <= T -> In g gs -> exists D : R, is_derive g t D /\ Rabs D <= k * asum gs t + eps) ->
  forall t, 0 <= t <= T -> asum gs t <= 2 ^ length gs * exp ((2 * k + 1) * 2 ^ length gs * T) * (1 + T) * (asum gs 0 + eps).
Proof.
  intros Hk He HT Hg t Ht. set (N := 2 ^ length gs). assert (N1 : 1 <= N) by (apply pow_R1_Rle; lra). set (c := (2 * k + 1) * N).
  assert (C0 : 0 <= c) by (unfold c; apply Rmult_le_pos; lra).
  assert (HS : forall s, 0 <= s <= T -> exists D : R, is_derive (sqsum gs) s D /\ D <= c * sqsum gs s + eps * eps).
  { intros s Hs. destruct (sqsum_derive gs s (k * asum gs s + eps)) as (D & E & B); [intros; now apply Hg|]. exists D. split; [exact E|].
    pose proof (asum_sq gs s) as Q. fold N in Q. pose proof (asum_pos gs s) as P. set (a := asum gs s) in *. set (S := sqsum gs s) in *.
    assert (0 <= (a - eps) * (a - eps)) by apply Rle_0_sqr. assert ((2 * k + 1) * (a * a) <= (2 * k + 1) * (N * S)) by (apply Rmult_le_compat_l; lra). unfold c. lra. }
  set (h := fun s => sqsum gs s * exp (- (c * s)) - eps * eps * s).
  assert (Hh : forall s, 0 <= s <= T -> exists D : R, is_derive h s D /\ D <= 0).
  { intros s Hs. destruct (HS s Hs) as (D & E & B). exists (D * exp (- (c * s)) + sqsum gs s * (- c * exp (- (c * s))) - eps * eps). split.
    - assert (E1 : is_derive (fun s => exp (- (c * s))) s (- c * exp (- (c * s)))) by (auto_derive; [trivial|ring]).
      assert (E2 : is_derive (fun s => eps * eps * s) s (eps * eps)) by (auto_derive; [trivial|ring]).
      exact (is_derive_minus _ _ _ _ _ (is_derive_mult (sqsum gs) (fun s => exp (- (c * s))) s _ _ E E1 Rmult_comm) E2).
    - assert (X : 0 < exp (- (c * s)) <= 1).
      { split; [apply exp_pos|]. destruct (Req_dec (c * s) 0) as [->|Ne]; [rewrite Ropp_0, exp_0; lra|]. rewrite <- exp_0. left. apply exp_increasing. assert (0 <= c * s) by (apply Rmult_le_pos; lra). lra. }
      set (x := exp (- (c * s))) in *. assert (D * x <= (c * sqsum gs s + eps * eps) * x) by (apply Rmult_le_compat_r; lra).
      assert (eps * eps * x <= eps * eps * 1) by (apply Rmult_le_compat_l; [apply Rle_0_sqr|lra]). lra. }
  assert (M : h t <= h 0).
  { destruct (mvt h (Derive h) 0 t) as (x & Hx & E); [lra| |].
    - intros s Hs. apply Derive_correct. destruct (Hh s ltac:(lra)) as (D & E & _). now exists D.
    - rewrite Rplus_0_l in *. destruct (Hh x ltac:(lra)) as (D & E2 & B). rewrite (is_derive_unique _ _ _ E2) in E. assert (t * D <= 0) by nra. lra. }
  unfold h in M. rewrite Rmult_0_r, Ropp_0, exp_0, !Rmult_0_r, Rmult_1_r, Rminus_0_r in M.
  set (X := exp (c * T)). assert (X1 : 1 <= X). { unfold X. pose proof (exp_ge (c * T)). assert (0 <= c * T) by (apply Rmult_le_pos; lra). lra. }
  assert (XT : exp (c * t) <= X).
  { unfold X. destruct (Req_dec (c * t) (c * T)) as [->|Ne]; [lra|]. left. apply exp_increasing. assert (c * t <= c * T) by (apply Rmult_le_compat_l; lra). lra. }
  pose proof (exp_pos (c * t)) as XP. pose proof (sqsum_le gs 0) as S0. pose proof (sqsum_pos gs 0) as S00. pose proof (asum_pos gs 0) as A0. pose proof (asum_pos gs t) as At. pose proof (asum_sq gs t) as At2. fold N in At2.
  set (a0 := asum gs 0) in *. set (a := asum gs t) in *.
  assert (S1 : sqsum gs t <= X * (a0 * a0 + T * (eps * eps))).
  { assert (I : exp (- (c * t)) * exp (c * t) = 1) by (rewrite <- exp_plus, Rplus_opp_l; apply exp_0).
    replace (sqsum gs t) with (sqsum gs t * exp (- (c * t)) * exp (c * t)) by (rewrite Rmult_assoc, I; ring).
    assert (J : sqsum gs t * exp (- (c * t)) <= a0 * a0 + T * (eps * eps)). { assert (eps * eps * t <= eps * eps * T) by (apply Rmult_le_compat_l; [apply Rle_0_sqr|lra]). lra. }
    assert (0 <= a0 * a0 + T * (eps * eps)) by (assert (0 <= T * (eps * eps)) by (apply Rmult_le_pos; [lra|apply Rle_0_sqr]); pose proof (Rle_0_sqr a0) as Q0; unfold Rsqr in Q0; lra). pose proof (sqsum_pos gs t). pose proof (exp_pos (- (c * t))).
    apply Rle_trans with ((a0 * a0 + T * (eps * eps)) * exp (c * t)); [apply Rmult_le_compat_r; lra|]. rewrite Rmult_comm. apply Rmult_le_compat_r; lra. }
  set (K := N * X * (1 + T)). assert (KX : 1 <= N * X) by nra. assert (K1 : 1 <= K) by (unfold K; nra).
  fold c. fold X. fold K. apply Rsqr_incr_0_var; [|apply Rmult_le_pos; lra]. unfold Rsqr.
  apply Rle_trans with (K * (a0 * a0 + eps * eps)).
  - eapply Rle_trans; [exact At2|]. eapply Rle_trans; [apply Rmult_le_compat_l; [lra|exact S1]|]. unfold K.
    rewrite <- Rmult_assoc, (Rmult_assoc (N * X)). apply Rmult_le_compat_l; [lra|]. pose proof (Rle_0_sqr a0) as Q0. pose proof (Rle_0_sqr eps) as Q1. unfold Rsqr in Q0, Q1. assert (0 <= T * (a0 * a0)) by (apply Rmult_le_pos; lra). lra.
  - assert (0 <= a0 * eps) by (apply Rmult_le_pos; lra). assert (a0 * a0 + eps * eps <= (a0 + eps) * (a0 + eps)) by nra.
    apply Rle_trans with (K * ((a0 + eps) * (a0 + eps))); [apply Rmult_le_compat_l; lra|].
    replace (K * (a0 + eps) * (K * (a0 + eps))) with (K * (K * ((a0 + eps) * (a0 + eps)))) by ring. apply Rmult_le_compat_l; [lra|].
    assert (Q : 0 <= (a0 + eps) * (a0 + eps)) by apply Rle_0_sqr. rewrite <- (Rmult_1_l ((a0 + eps) * (a0 + eps))) at 1. apply Rmult_le_compat_r; lra.
Qed.

Definition gaps (C1 C2 : R -> mat3) (y1 y2 : R -> vec3 * vec3) : list (R -> R) :=
  map (fun e s => e (C1 s) - e (C2 s)) [m11; m12; m13; m21; m22; m23; m31; m32; m33] ++
  map (fun c s => c (y1 s) - c (y2 s)) [(fun y => vx (fst y)); (fun y => vy (fst y)); (fun y => vz (fst y)); (fun y => vx (snd y)); (fun y => vy (snd y)); (fun y => vz (snd y))].
Lemma gaps_sum C1 C2 y1 y2 t : asum (gaps C1 C2 y1 y2) t = d9 (C1 t) (C2 t) + d6 (y1 t) (y2 t).
Proof. unfold gaps, d9, n9, d6, n1, msub, row1, row2, row3, vsub. cbn. ring. Qed.

Lemma motions_close : forall A H V Fm W T, 0 <= A < PI / 2 -> 0 <= H <= 6200000 -> 0 <= V -> 0 <= Fm -> 0 <= W -> 0 <= T ->
  exists K, 0 < K /\ forall C1 y1 f1 w1 C2 y2 f2 w2 eps,
    motion T C1 y1 f1 w1 -> motion T C2 y2 f2 w2 -> 0 <= eps ->
    (forall t, 0 <= t <= T -> Box A H V (y1 t) /\ Box A H V (y2 t) /\ n1 (f1 t) <= Fm /\ n1 (w1 t) <= W /\
      n1 (vsub (f1 t) (f2 t)) <= eps /\ n1 (vsub (w1 t) (w2 t)) <= eps) ->
    forall t, 0 <= t <= T -> d9 (C1 t) (C2 t) + d6 (y1 t) (y2 t) <= K * (d9 (C1 0) (C2 0) + d6 (y1 0) (y2 0) + eps).
Proof.
  intros A H V Fm W T HA HH HV HF HW HT.
  destruct (field_bounds A H V) as (M & L & HM & HL & H6 & Hgr); try lra. pose proof (six_c6 _ H6) as HG. cbv beta in HG.
  set (k := 2 * W + Fm + 2 * L). assert (Hk : 0 <= k) by (unfold k; lra).
  set (K := 2 ^ 15 * exp ((2 * k + 1) * 2 ^ 15 * T) * (1 + T)).
  assert (K0 : 0 < K). { unfold K. apply Rmult_lt_0_compat; [apply Rmult_lt_0_compat; [apply pow_lt; lra|apply exp_pos]|lra]. }
  exists (18 * K). split; [lra|]. intros C1 y1 f1 w1 C2 y2 f2 w2 eps M1 M2 He Hb t Ht.
  pose proof (gronwall (gaps C1 C2 y1 y2) k (18 * eps) T Hk ltac:(lra) HT) as G. rewrite <- !gaps_sum.
  assert (A0 := asum_pos (gaps C1 C2 y1 y2) 0).
  apply Rle_trans with (K * (asum (gaps C1 C2 y1 y2) 0 + 18 * eps)); [|assert (0 <= K * asum (gaps C1 C2 y1 y2) 0) by (apply Rmult_le_pos; lra); lra].
  apply G; [|exact Ht]. clear t Ht G. intros t g Ht Hin. rewrite gaps_sum.
  destruct (Hb t Ht) as (B1 & B2 & F1 & W1 & DF & DW).
  destruct (motion_derive T C1 y1 f1 w1 t M1 Ht) as (N1 & E1 & Y1). destruct (motion_derive T C2 y2 f2 w2 t M2 Ht) as (N2 & E2 & Y2).
  assert (P9 : 0 <= d9 (C1 t) (C2 t)) by apply n9_pos. pose proof (d6_pos (y1 t) (y2 t)) as P6. pose proof (n1_pos (f1 t)) as Pf. pose proof (n1_pos (w1 t)) as Pw.
  assert (KE : 0 <= (Fm + 2 * L) * d9 (C1 t) (C2 t)) by (apply Rmult_le_pos; lra).
  assert (Case9 : forall e, e9 e -> exists D, is_derive (fun s => e (C1 s) - e (C2 s)) t D /\ Rabs D <= k * (d9 (C1 t) (C2 t) + d6 (y1 t) (y2 t)) + 18 * eps).
  { intros e He'. eexists. split; [apply @is_derive_minus; [apply E1, He'|apply E2, He']|]. unfold minus, plus, opp; cbn.
    replace (e (mmul (C1 t) (skw (w1 t))) + - e (mmul (C2 t) (skw (w2 t)))) with (e (madd (mmul (msub (C1 t) (C2 t)) (skw (w1 t))) (mmul (C2 t) (skw (vsub (w1 t) (w2 t)))))).
    - eapply Rle_trans; [apply e9_le, He'|]. eapply Rle_trans; [apply n9_tri|]. pose proof (n9_mul (msub (C1 t) (C2 t)) (skw (w1 t))) as Q1. pose proof (n9_mul (C2 t) (skw (vsub (w1 t) (w2 t)))) as Q2.
      rewrite n9_skw in Q1, Q2. fold (d9 (C1 t) (C2 t)) in Q1. pose proof (n1_pos (vsub (w1 t) (w2 t))). pose proof (n9_pos (C2 t)).
      assert (d9 (C1 t) (C2 t) * (2 * n1 (w1 t)) <= d9 (C1 t) (C2 t) * (2 * W)) by (apply Rmult_le_compat_l; lra).
      assert (n9 (C2 t) * (2 * n1 (vsub (w1 t) (w2 t))) <= 9 * (2 * eps)) by (apply Rmult_le_compat; lra).
      assert (0 <= k * d6 (y1 t) (y2 t)) by (apply Rmult_le_pos; lra). unfold k in *. lra.
    - rewrite e9_add by exact He'. replace (mmul (msub (C1 t) (C2 t)) (skw (w1 t))) with (msub (mmul (C1 t) (skw (w1 t))) (mmul (C2 t) (skw (w1 t)))) by (unfold msub, mmul; cbn; apply m3_eq; ring).
      replace (mmul (C2 t) (skw (vsub (w1 t) (w2 t)))) with (msub (mmul (C2 t) (skw (w1 t))) (mmul (C2 t) (skw (w2 t)))) by (unfold msub, mmul, skw, vsub; cbn; apply m3_eq; ring).
      rewrite !e9_sub by exact He'. ring. }
  assert (Case6 : forall c, c6 c -> exists D, is_derive (fun s => c (y1 s) - c (y2 s)) t D /\ Rabs D <= k * (d9 (C1 t) (C2 t) + d6 (y1 t) (y2 t)) + 18 * eps).
  { intros c Hc. eexists. split; [apply @is_derive_minus; [apply Y1, Hc|apply Y2, Hc]|]. unfold minus, plus, opp; cbn.
    set (q1 := vadd (mvmul (C1 t) (f1 t)) (grav (y1 t))). set (q2 := vadd (mvmul (C2 t) (f2 t)) (grav (y2 t))).
    destruct (HG c Hc (y1 t) (y2 t) q1 q2 B1 B2) as (_ & Q). eapply Rle_trans; [exact Q|].
    assert (N : n1 (vsub q1 q2) <= d9 (C1 t) (C2 t) * Fm + 9 * eps + L * d6 (y1 t) (y2 t)).
    { replace (vsub q1 q2) with (vadd (vadd (mvmul (msub (C1 t) (C2 t)) (f1 t)) (mvmul (C2 t) (vsub (f1 t) (f2 t)))) (vsub (grav (y1 t)) (grav (y2 t)))) by (unfold q1, q2, vadd, vsub, mvmul, msub; cbn; apply v3_eq; ring).
      eapply Rle_trans; [apply n1_tri|]. pose proof (n1_tri (mvmul (msub (C1 t) (C2 t)) (f1 t)) (mvmul (C2 t) (vsub (f1 t) (f2 t)))) as Z1.
      pose proof (n1_mv (msub (C1 t) (C2 t)) (f1 t)) as Z2. fold (d9 (C1 t) (C2 t)) in Z2. pose proof (n1_mv (C2 t) (vsub (f1 t) (f2 t))) as Z3. destruct (Hgr (y1 t) (y2 t) B1 B2) as (_ & Z4).
      pose proof (n1_pos (vsub (f1 t) (f2 t))). pose proof (n9_pos (C2 t)).
      assert (d9 (C1 t) (C2 t) * n1 (f1 t) <= d9 (C1 t) (C2 t) * Fm) by (apply Rmult_le_compat_l; lra).
      assert (n9 (C2 t) * n1 (vsub (f1 t) (f2 t)) <= 9 * eps) by (apply Rmult_le_compat; lra). lra. }
    assert (0 <= (2 * W + Fm) * d6 (y1 t) (y2 t)) by (apply Rmult_le_pos; lra). assert (0 <= (2 * W + 2 * L) * d9 (C1 t) (C2 t)) by (apply Rmult_le_pos; lra). unfold k. lra. }
  unfold gaps in Hin. apply in_app_or in Hin as [Hin|Hin]; apply in_map_iff in Hin as (e & <- & Hin).
  - apply Case9. unfold e9. cbn in Hin. intuition.
  - apply Case6. unfold c6. cbn in Hin. intuition.
Qed.

Lemma n1_zero u : n1 u <= 0 -> u = v3zero.
Proof.
  intros Z. pose proof (Rabs_pos (vx u)). pose proof (Rabs_pos (vy u)). pose proof (Rabs_pos (vz u)). unfold n1 in Z.
  assert (B : forall x, Rabs x <= 0 -> x = 0) by (intros x Hx; apply Rabs_eq_0; pose proof (Rabs_pos x); lra).
  destruct u. cbn in *. unfold v3zero. apply v3_eq; cbn; apply B; lra.
Qed.
Lemma vsub_zero u v : vsub u v = v3zero -> u = v.
Proof. destruct u, v. unfold vsub, v3zero. cbn. intros E. injection E as E1 E2 E3. apply v3_eq; lra. Qed.
Lemma dist_zero C1 C2 y1 y2 : d9 C1 C2 + d6 y1 y2 <= 0 -> C1 = C2 /\ y1 = y2.
Proof.
  intros Z. assert (P9 : 0 <= d9 C1 C2) by apply n9_pos. pose proof (d6_pos y1 y2). unfold d9, n9, d6 in *.
  set (X := msub C1 C2) in *. pose proof (n1_pos (row1 X)). pose proof (n1_pos (row2 X)). pose proof (n1_pos (row3 X)).
  pose proof (n1_pos (vsub (fst y1) (fst y2))). pose proof (n1_pos (vsub (snd y1) (snd y2))).
  assert (E1 := n1_zero (row1 X) ltac:(lra)). assert (E2 := n1_zero (row2 X) ltac:(lra)). assert (E3 := n1_zero (row3 X) ltac:(lra)).
  assert (E4 := vsub_zero _ _ (n1_zero (vsub (fst y1) (fst y2)) ltac:(lra))). assert (E5 := vsub_zero _ _ (n1_zero (vsub (snd y1) (snd y2)) ltac:(lra))).
  split.
  - unfold X, msub, row1, row2, row3, v3zero in E1, E2, E3. cbn in E1, E2, E3. injection E1 as A1 A2 A3. injection E2 as A4 A5 A6. injection E3 as A7 A8 A9. destruct C1, C2. cbn in *. apply m3_eq; lra.
  - destruct y1, y2. cbn in *. now rewrite E4, E5.
Qed.
Lemma motions_unique : forall A H V Fm W T C1 y1 C2 y2 f w, 0 <= A < PI / 2 -> 0 <= H <= 6200000 -> 0 <= V -> 0 <= Fm -> 0 <= W -> 0 <= T ->
  motion T C1 y1 f w -> motion T C2 y2 f w ->
  (forall t, 0 <= t <= T -> Box A H V (y1 t) /\ Box A H V (y2 t) /\ n1 (f t) <= Fm /\ n1 (w t) <= W) ->
  C1 0 = C2 0 -> y1 0 = y2 0 -> forall t, 0 <= t <= T -> C1 t = C2 t /\ y1 t = y2 t.
Proof.
  intros A H V Fm W T C1 y1 C2 y2 f w HA HH HV HF HW HT M1 M2 Hb E1 E2 t Ht.
  destruct (motions_close A H V Fm W T HA HH HV HF HW HT) as (K & HK & Main).
  assert (Z : forall u, n1 (vsub u u) = 0) by (intros; unfold n1, vsub; cbn; rewrite !Rminus_eq_0, !Rabs_R0; ring).
  apply dist_zero. eapply Rle_trans; [apply (Main C1 y1 f w C2 y2 f w 0 M1 M2 ltac:(lra)); [|exact Ht]|].
  - intros s Hs. destruct (Hb s Hs) as (? & ? & ? & ?). rewrite !Z. split; [assumption|]. split; [assumption|]. split; [assumption|]. split; [assumption|]. lra.
  - rewrite E1, E2, d6_refl. unfold d9, n9, n1, msub, row1, row2, row3. cbn. rewrite !Rminus_eq_0, !Rabs_R0. lra.
Qed.
