(** Proofs for dcm2Euler in rounded arithmetic. *)
From Coq Require Import Reals ZArith Lra Lia Psatz.
From Flocq Require Import Core.
From Verif Require Import Base BaseVec ModelAttitude ModelDate ModelStrapdownFloat ModelEulerFloat SpecFloatOps SpecEulerFloat SpecStrapdown ProofPi ProofVec ProofTrig
  ProofStrapdownFloat ProofDate ProofRnd ProofStrapdownFloat2 ProofGravityFloat ProofLlaPole.
Open Scope R_scope.

Lemma u64_tight : 0 < u64 <= 112 / 1000000000000000000.
Proof. rewrite u64_val. lra. Qed.
Lemma Rltb'_spec x y : x < y /\ Rltb' x y = true \/ y <= x /\ Rltb' x y = false.
Proof. destruct (Rlt_dec x y) as [H|H]; [left|right; apply Rnot_lt_le in H]; (split; [exact H|]); [now apply Rltb'_true|now apply Rltb'_false]. Qed.
(** ** Angles from small sines *)
Lemma sin_mod x s : Rabs (sin x) <= s -> s <= 1 / 100 -> exists k : Z, Rabs (x - IZR k * PI) <= 101 / 100 * s.
Proof.
  intros H S. pose proof PI_bounds as P. pose proof (Rabs_pos (sin x)) as S0.
  exists (Zfloor (x / PI + / 2)). set (k := Zfloor (x / PI + / 2)). set (y := x - IZR k * PI).
  assert (E : x = y + IZR k * PI) by (unfold y; ring).
  assert (Y : - (PI / 2) <= y <= PI / 2).
  { pose proof (Zfloor_lb (x / PI + / 2)) as L. pose proof (Zfloor_ub (x / PI + / 2)) as U. fold k in L, U.
    assert (Q : x / PI = y / PI + IZR k) by (rewrite E at 1; field; lra). rewrite Q in L, U.
    assert (D : y = y / PI * PI) by (field; lra). set (q := y / PI) in *. nra. }
  assert (SK : sin (IZR k * PI) = 0) by (apply sin_eq_0_1; now exists k).
  assert (A : Rabs (sin y) = Rabs (sin x)).
  { rewrite E, sin_plus, SK. pose proof (sin2_cos2 (IZR k * PI)) as T. rewrite SK in T. unfold Rsqr in T.
    replace (sin y * cos (IZR k * PI) + cos y * 0) with (sin y * cos (IZR k * PI)) by ring. rewrite Rabs_mult.
    replace (Rabs (cos (IZR k * PI))) with 1; [ring|].
    assert (C : (cos (IZR k * PI) - 1) * (cos (IZR k * PI) + 1) = 0) by lra.
    apply Rmult_integral in C. destruct C as [C|C].
    - replace (cos (IZR k * PI)) with 1 by lra. now rewrite Rabs_R1.
    - replace (cos (IZR k * PI)) with (-1) by lra. rewrite Rabs_left; lra. }
  destruct (Rle_lt_dec (Rabs y) (101 / 100 * s)) as [G|G]; [exact G|exfalso].
  assert (B : sin (Rabs y) = Rabs (sin y)).
  { unfold Rabs at 1. destruct (Rcase_abs y) as [N|N].
    - rewrite sin_neg. assert (sin y <= 0). { rewrite <- (Ropp_involutive y), sin_neg. assert (0 <= sin (- y)) by (apply sin_ge_0; lra). lra. }
      rewrite Rabs_left1; lra.
    - rewrite Rabs_right; [reflexivity|]. apply Rle_ge, sin_ge_0; lra. }
  assert (Y' : Rabs y <= PI / 2) by (apply Rabs_le; lra).
  set (t := 101 / 100 * s) in *.
  assert (I : sin t < sin (Rabs y)) by (apply sin_increasing_1; unfold t in *; lra).
  destruct (sin_low t) as [L _]; [unfold t; lra|].
  assert (t * t * t <= t / 1000) by (unfold t; nra). unfold t in *. rewrite B, A in I. lra.
Qed.
Lemma proj_le a b c s e : c * c + s * s = 1 -> Rabs a <= e -> Rabs b <= e -> Rabs (a * c + b * s) <= 142 / 100 * e.
Proof.
  intros T A B. pose proof (Rabs_pos a). assert (A2 : a * a <= e * e) by (apply Rabs_le_inv in A; nra).
  assert (B2 : b * b <= e * e) by (apply Rabs_le_inv in B; nra).
  assert (Q : (a * c + b * s) * (a * c + b * s) <= a * a + b * b).
  { pose proof (Rle_0_sqr (a * s - b * c)) as K. unfold Rsqr in K.
    replace (a * a + b * b) with ((a * a + b * b) * (c * c + s * s)) by (rewrite T; ring). lra. }
  apply Rabs_le. split; nra.
Qed.
(** The direction of a perturbed vector, up to half turns. *)
Lemma atan_mod C r x y T e : 0 < C -> 0 <= e <= C / 200 -> x <> 0 -> y = T * x ->
  Rabs (x - cos r * C) <= e -> Rabs (y - sin r * C) <= e ->
  exists k : Z, Rabs (atan T - r - IZR k * PI) <= 145 / 100 * (e / C).
Proof.
  intros C0 E X0 Y HX HY. set (f := atan T).
  assert (cf : 0 < cos f). { destruct (atan_bound T). apply cos_gt_0; unfold f; lra. }
  assert (sf : sin f = T * cos f). { pose proof (tan_atan T) as K. fold f in K. unfold tan in K. rewrite <- K. field. lra. }
  set (h := x / cos f). assert (X1 : x = h * cos f) by (unfold h; field; lra).
  assert (Y1 : y = h * sin f) by (rewrite sf, Y, X1; ring).
  assert (CS : cos r * cos r + sin r * sin r = 1) by (pose proof (sin2_cos2 r); unfold Rsqr in *; lra).
  assert (P1 : h * sin (f - r) = (y - sin r * C) * cos r + (x - cos r * C) * (- sin r)).
  { rewrite sin_minus. rewrite X1, Y1. ring. }
  assert (P2 : h * cos (f - r) = C + ((x - cos r * C) * cos r + (y - sin r * C) * sin r)).
  { rewrite cos_minus. rewrite X1, Y1. assert (CC : C * (cos r * cos r + sin r * sin r) = C) by (rewrite CS; ring). lra. }
  assert (B1 : Rabs (h * sin (f - r)) <= 142 / 100 * e) by (rewrite P1; apply proj_le; [lra|exact HY|exact HX]).
  assert (B2 : Rabs (h * cos (f - r)) >= C - 142 / 100 * e).
  { rewrite P2. pose proof (proj_le _ _ _ _ _ CS HX HY) as K. apply Rabs_le_inv in K. rewrite Rabs_right; lra. }
  assert (H1 : C - 142 / 100 * e <= Rabs h).
  { rewrite Rabs_mult in B2. assert (Rabs (cos (f - r)) <= 1) by (apply Rabs_le; pose proof (COS_bound (f - r)); lra).
    pose proof (Rabs_pos h). nra. }
  assert (S1 : Rabs (sin (f - r)) <= 1431 / 1000 * (e / C)).
  { rewrite Rabs_mult in B1. set (q := e / C). assert (Q : e = q * C) by (unfold q; field; lra).
    pose proof (Rabs_pos (sin (f - r))). rewrite Q in *. clear - B1 H1 C0 E H. nra. }
  assert (S2 : 1431 / 1000 * (e / C) <= 1 / 100).
  { assert (e / C <= / 200) by (apply (Rmult_le_reg_r C); [lra|]; replace (e / C * C) with e by (field; lra); lra). lra. }
  destruct (sin_mod _ _ S1 S2) as [k K]. exists k. unfold f in *.
  assert (0 <= e / C) by (apply Rmult_le_pos; [lra|]; left; apply Rinv_0_lt_compat; lra). lra.
Qed.
Lemma sin_half t : 0 <= t <= PI / 2 -> 58 / 100 * t <= sin t.
Proof.
  intros T. pose proof PI_bounds as B. destruct (pre_sin_bound t 0) as [L _]; try lra.
  unfold sin_approx, sin_term in L. cbn in L.
  assert (t * t <= 2.5) by nra. assert (t * t * t <= 2.5 * t) by nra. lra.
Qed.
Lemma asin_move p q : - (PI / 2) <= p <= PI / 2 -> - (PI / 2) <= q <= PI / 2 -> cos p * Rabs (q - p) <= 7 / 2 * Rabs (sin q - sin p).
Proof.
  intros P Q. pose proof PI_bounds as B.
  set (d := (q - p) / 2). set (m := (q + p) / 2).
  assert (EQ : q = m + d) by (unfold m, d; field). assert (EP : p = m - d) by (unfold m, d; field).
  assert (S : sin q - sin p = 2 * (sin d * cos m)) by (rewrite EQ, EP, sin_plus, sin_minus; ring).
  assert (C : cos q + cos p = 2 * (cos m * cos d)) by (rewrite EQ, EP, cos_plus, cos_minus; ring).
  assert (0 <= cos q) by (apply cos_ge_0; lra). assert (0 <= cos p) by (apply cos_ge_0; lra).
  assert (0 <= cos m) by (apply cos_ge_0; unfold m; lra). assert (0 <= cos d) by (apply cos_ge_0; unfold d; lra).
  pose proof (COS_bound d) as CD.
  assert (M : cos p / 2 <= cos m) by nra.
  assert (D : 58 / 100 * Rabs d <= Rabs (sin d)).
  { unfold Rabs at 1. destruct (Rcase_abs d) as [N|N].
    - pose proof (sin_half (- d)) as K. rewrite sin_neg in K. rewrite Rabs_left1; [|].  apply K. unfold d in *; lra.
      assert (58 / 100 * - d <= - sin d) by (apply K; unfold d in *; lra). lra.
    - assert (58 / 100 * d <= sin d) by (apply sin_half; unfold d in *; lra). rewrite Rabs_right; lra. }
  rewrite S, Rabs_mult, Rabs_mult, (Rabs_right 2), (Rabs_right (cos m)) by lra.
  replace (q - p) with (2 * d) by (unfold d; field). rewrite Rabs_mult, (Rabs_right 2) by lra.
  pose proof (Rabs_pos d). nra.
Qed.

(** ** The angles of a perturbed matrix *)
Section S.
Variable F : FloatOps. Variables at_ as_ : R -> R. Hypothesis HF : float_ok F. Hypothesis HA : atan_ok at_. Hypothesis HS : asin_ok as_.
Local Notation u := u64. Local Notation rr := (frnd F).
Local Lemma quot x y : x <> 0 -> Rabs x <= 2 -> Rabs y <= 2 -> Rabs (rr (y / x) * x - y) <= 3 * u.
Proof.
  intros X0 X Y. pose proof (proj1 HF (y / x)) as K. pose proof eta_u as E. pose proof eta_pos as E0. pose proof u64_tight as U.
  replace (rr (y / x) * x - y) with ((rr (y / x) - y / x) * x) by (field; exact X0). rewrite Rabs_mult.
  apply Rle_trans with ((u * Rabs (y / x) + eta64) * Rabs x); [apply Rmult_le_compat_r; [apply Rabs_pos|exact K]|].
  replace ((u * Rabs (y / x) + eta64) * Rabs x) with (u * Rabs (y / x * x) + eta64 * Rabs x) by (rewrite Rabs_mult; ring).
  replace (y / x * x) with y by (field; exact X0). pose proof (Rabs_pos x). nra.
Qed.
Local Lemma angle_at C r x y e : 0 < C <= 1 -> 0 <= e -> e + 3 * u <= C / 200 -> x <> 0 ->
  Rabs (x - cos r * C) <= e -> Rabs (y - sin r * C) <= e ->
  exists k : Z, Rabs (at_ (rr (y / x)) - r - IZR k * PI) <= (145 / 100 * e + 7 * u) / C /\
    Rabs (at_ (rr (y / x))) <= PI / 2 + 2 * u.
Proof.
  intros C0 E E2 X0 HX HY. pose proof u64_tight as U.
  assert (T2 : Rabs x <= 2 /\ Rabs y <= 2).
  { pose proof (COS_bound r). pose proof (SIN_bound r). apply Rabs_le_inv in HX, HY. split; apply Rabs_le; nra. }
  pose proof (quot x y X0 (proj1 T2) (proj2 T2)) as Q.
  destruct (atan_mod C r x (rr (y / x) * x) (rr (y / x)) (e + 3 * u)) as [k K]; try lra; try reflexivity; try exact X0.
  { replace (rr (y / x) * x - sin r * C) with ((rr (y / x) * x - y) + (y - sin r * C)) by ring.
    eapply Rle_trans; [apply Rabs_triang|]. lra. }
  exists k. pose proof (HA (rr (y / x))) as A. split.
  - replace (at_ (rr (y / x)) - r - IZR k * PI) with ((at_ (rr (y / x)) - atan (rr (y / x))) + (atan (rr (y / x)) - r - IZR k * PI)) by ring.
    eapply Rle_trans; [apply Rabs_triang|].
    assert (2 * u <= 2 * u / C). { apply (Rmult_le_reg_r C); [lra|]. replace (2 * u / C * C) with (2 * u) by (field; lra). nra. }
    apply Rle_trans with (2 * u / C + 145 / 100 * ((e + 3 * u) / C)); [lra|].
    replace (2 * u / C + 145 / 100 * ((e + 3 * u) / C)) with ((145 / 100 * e + 635 / 100 * u) * / C) by (field; lra).
    apply Rmult_le_compat_r; [left; apply Rinv_0_lt_compat; lra|lra].
  - destruct (atan_bound (rr (y / x))). apply Rabs_le_inv in A. apply Rabs_le. lra.
Qed.
Local Lemma lit9 : 99 / 100000000000 <= rr (1 / 1000000000) <= 101 / 100000000000.
Proof.
  pose proof (proj1 HF (1 / 1000000000)) as K. pose proof eta_u as E. pose proof u64_tight as U. rewrite (Rabs_right (1 / 1000000000)) in K by lra.
  apply Rabs_le_inv in K. lra.
Qed.
Local Lemma half_turn t : - (PI / 2) - 2 * u <= t < 0 -> Rabs (rr (t + rr PI) - (t + PI)) <= 9 * u.
Proof.
  intros T. pose proof PI_bounds as P. pose proof u64_tight as U. pose proof eta_u as E.
  pose proof (proj1 HF PI) as K. rewrite (Rabs_right PI) in K by lra. pose proof (proj1 HF (t + rr PI)) as K2.
  assert (UP : u * PI <= 32 / 10 * u) by nra. apply Rabs_le_inv in K. rewrite (Rabs_right (t + rr PI)) in K2 by lra.
  assert (UQ : u * (t + rr PI) <= 32 / 10 * u) by nra. apply Rabs_le_inv in K2. apply Rabs_le. lra.
Qed.
Lemma euler_mod r p h A e e0 e' : entries_within e A (axes_of r p h) -> 0 <= e -> 400 * e <= cos p -> 9 / 10000000000 <= cos p -> - (PI / 2) <= p <= PI / 2 ->
  dcm2Euler_f F at_ as_ A e0 = Ret (true, e') ->
  (exists k, Rabs (vx e' - r - IZR k * PI) <= (3 / 2 * e + 7 * u) / cos p) /\ Rabs (vx e') <= PI / 2 + 2 * u /\
  Rabs (vy e' - p) <= (7 / 2 * e + 2 * u) / cos p /\
  (exists k, Rabs (vz e' - h - IZR k * PI) <= (3 / 2 * e + 16 * u) / cos p) /\ 0 <= vz e' <= PI + 9 * u.
Proof.
  intros (E11 & E12 & E13 & _ & _ & E23 & _ & _ & E33) E E4 CP P H. cbn [axes_of m11 m12 m13 m23 m33] in E11, E12, E13, E23, E33.
  pose proof PI_bounds as PB. pose proof u64_tight as U. pose proof lit9 as L9.
  unfold dcm2Euler_f in H.
  destruct (Rltb'_spec (Rabs (m11 A)) (rr (1 / 1000000000))) as [[G1 B]|[G1 B]]; rewrite B in H; clear B; [discriminate H|].
  destruct (Rltb'_spec (Rabs (m33 A)) (rr (1 / 1000000000))) as [[G2 B]|[G2 B]]; rewrite B in H; clear B; [discriminate H|]. cbn [orb] in H.
  destruct (Rltb'_spec 1 (m13 A)) as [[G3 B]|[G3 B]]; rewrite B in H; clear B; [discriminate H|].
  destruct (Rltb'_spec (m13 A) (-1)) as [[G4 B]|[G4 B]]; rewrite B in H; clear B; [discriminate H|]. cbn [orb] in H.
  assert (N1 : m11 A <> 0) by (intros Z; rewrite Z, Rabs_R0 in G1; lra).
  assert (N3 : m33 A <> 0) by (intros Z; rewrite Z, Rabs_R0 in G2; lra).
  unfold Rdivc in H. destruct (Req_EM_T (m33 A) 0) as [Z|_]; [contradiction|]. cbn [bind] in H.
  destruct (Req_EM_T (m11 A) 0) as [Z|_]; [contradiction|]. cbn [bind] in H.
  assert (C0 : 0 <= cos p) by (apply cos_ge_0; lra). pose proof (COS_bound p) as C1.
  destruct (angle_at (cos p) r (m33 A) (m23 A) e) as (k1 & K1 & B1); try lra; try assumption.
  destruct (angle_at (cos p) h (m11 A) (m12 A) e) as (k3 & K3 & B3); try lra; try assumption.
  { now rewrite Rmult_comm. } { now rewrite Rmult_comm. }
  set (t1 := at_ (rr (m23 A / m33 A))) in *. set (t3 := at_ (rr (m12 A / m11 A))) in *.
  assert (D : forall a b c, a <= b -> c <= a / cos p -> c <= b / cos p).
  { intros a b c AB K. eapply Rle_trans; [exact K|]. apply Rmult_le_compat_r; [left; apply Rinv_0_lt_compat; lra|exact AB]. }
  assert (DU : 9 * u <= 9 * u / cos p). { apply (Rmult_le_reg_r (cos p)); [lra|]. replace (9 * u / cos p * cos p) with (9 * u) by (field; lra). nra. }
  injection H as <-. cbn [vx vy vz].
  split; [exists k1; refine (D _ _ _ _ K1); lra|]. split; [exact B1|]. split.
  { assert (G : -1 <= m13 A <= 1) by lra. pose proof (HS _ G) as K.
    pose proof (asin_bound (m13 A)) as AB. pose proof (asin_move p (- asin (m13 A)) P ltac:(lra)) as M.
    rewrite sin_neg, sin_asin in M by exact G.
    replace (- m13 A - sin p) with (- (m13 A - - sin p)) in M by ring. rewrite Rabs_Ropp in M.
    replace (- as_ (m13 A) - p) with (- (as_ (m13 A) - asin (m13 A)) + (- asin (m13 A) - p)) by ring.
    apply (Rmult_le_reg_r (cos p)); [lra|]. replace ((7 / 2 * e + 2 * u) / cos p * cos p) with (7 / 2 * e + 2 * u) by (field; lra).
    eapply Rle_trans; [apply Rmult_le_compat_r; [lra|apply Rabs_triang]|]. rewrite Rabs_Ropp. nra. }
  destruct (Rlt_dec t3 0) as [N|N].
  - apply Rabs_le_inv in B3. pose proof (half_turn t3 ltac:(lra)) as K. split.
    + exists (k3 + 1)%Z. rewrite plus_IZR. replace (rr (t3 + rr PI) - h - (IZR k3 + 1) * PI) with ((rr (t3 + rr PI) - (t3 + PI)) + (t3 - h - IZR k3 * PI)) by ring.
      eapply Rle_trans; [apply Rabs_triang|].
      replace ((3 / 2 * e + 16 * u) / cos p) with (9 * u / cos p + (3 / 2 * e + 7 * u) / cos p) by (field; lra).
      apply Rplus_le_compat; [lra|]. refine (D _ _ _ _ K3). lra.
    + apply Rabs_le_inv in K. lra.
  - split; [exists k3; refine (D _ _ _ _ K3); lra|]. apply Rabs_le_inv in B3. lra.
Qed.
Lemma int_small k x y b : Rabs (x - y - IZR k * PI) <= b -> Rabs (x - y) + b < PI -> k = 0%Z.
Proof.
  intros H D. pose proof PI_RGT_0 as P.
  assert (K : Rabs (IZR k * PI) < PI).
  { replace (IZR k * PI) with ((x - y) - (x - y - IZR k * PI)) by ring. eapply Rle_lt_trans; [apply Rabs_triang|]. rewrite Rabs_Ropp. lra. }
  rewrite Rabs_mult, (Rabs_right PI) in K by lra. assert (K1 : Rabs (IZR k) < 1) by nra. rewrite <- abs_IZR in K1. apply lt_IZR in K1. lia.
Qed.
Lemma euler_errors r p h A e e0 e' : entries_within e A (axes_of r p h) -> 0 <= e -> 400 * e <= cos p -> 9 / 10000000000 <= cos p ->
  - (PI / 2) <= r <= PI / 2 -> - (PI / 2) <= p <= PI / 2 -> 2 * e + 10 * u <= cos r * cos p -> dcm2Euler_f F at_ as_ A e0 = Ret (true, e') ->
  Rabs (vx e' - r) <= (3 / 2 * e + 7 * u) / cos p /\ Rabs (vy e' - p) <= (7 / 2 * e + 2 * u) / cos p /\
  (exists k, Rabs (vz e' - h - IZR k * PI) <= (3 / 2 * e + 16 * u) / cos p) /\ 0 <= vz e' <= PI + 9 * u.
Proof.
  intros HE E E4 CP R P R3 H. pose proof PI_bounds as PB. pose proof u64_tight as U.
  destruct (euler_mod r p h A e e0 e' HE E E4 CP P H) as ((k1 & K1) & B1 & Y & Z & W). pose proof (COS_bound p) as C1.
  split; [|repeat split; [exact Y|exact Z|exact (proj1 W)|exact (proj2 W)]].
  assert (k1 = 0%Z); [|subst k1; replace (vx e' - r) with (vx e' - r - 0 * PI) by ring; exact K1].
  refine (int_small k1 _ _ _ K1 _).
  assert (CR : cos r <= PI / 2 - Rabs r).
  { replace (cos r) with (sin (PI / 2 - Rabs r)). 2:{ rewrite sin_shift. unfold Rabs. destruct (Rcase_abs r); [apply cos_neg|reflexivity]. }
    apply sin_low. assert (Rabs r <= PI / 2) by (apply Rabs_le; lra). lra. }
  assert (Q : (3 / 2 * e + 7 * u) / cos p < cos r - 2 * u).
  { apply (Rmult_lt_reg_r (cos p)); [lra|]. replace ((3 / 2 * e + 7 * u) / cos p * cos p) with (3 / 2 * e + 7 * u) by (field; lra). nra. }
  pose proof (Rabs_triang (vx e') (- r)) as T. rewrite Rabs_Ropp in T. replace (vx e' + - r) with (vx e' - r) in T by ring. lra.
Qed.
Lemma heading_errors r p h A e e0 e' : entries_within e A (axes_of r p h) -> 0 <= e -> 400 * e <= cos p -> 9 / 10000000000 <= cos p ->
  - (PI / 2) <= p <= PI / 2 -> 0 <= h <= PI -> 2 * e + 26 * u <= cos p * sin h ->
  dcm2Euler_f F at_ as_ A e0 = Ret (true, e') -> Rabs (vz e' - h) <= (3 / 2 * e + 16 * u) / cos p.
Proof.
  intros HE E E4 CP P HH S H. pose proof PI_bounds as PB. pose proof u64_tight as U.
  destruct (euler_mod r p h A e e0 e' HE E E4 CP P H) as (_ & _ & _ & (k & K) & W). pose proof (COS_bound p) as C1.
  assert (k = 0%Z); [|subst k; replace (vz e' - h) with (vz e' - h - 0 * PI) by ring; exact K].
  refine (int_small k _ _ _ K _).
  assert (S1 : sin h <= h) by (apply sin_low; lra).
  assert (S2 : sin h <= PI - h) by (rewrite <- sin_PI_x; apply sin_low; lra).
  assert (Q : (3 / 2 * e + 16 * u) / cos p < sin h - 9 * u).
  { apply (Rmult_lt_reg_r (cos p)); [lra|]. replace ((3 / 2 * e + 16 * u) / cos p * cos p) with (3 / 2 * e + 16 * u) by (field; lra). nra. }
  assert (Rabs (vz e' - h) <= PI - sin h + 9 * u) by (apply Rabs_le; lra). lra.
Qed.
(** ** Acceptance *)
Lemma euler_accepts r p h A e e0 : entries_within e A (axes_of r p h) -> 0 <= e <= 1 / 1000000000000 ->
  102 / 100000000000 <= Rabs (cos p * cos h) -> 102 / 100000000000 <= Rabs (cos r * cos p) -> -1 <= m13 A <= 1 ->
  exists e', dcm2Euler_f F at_ as_ A e0 = Ret (true, e').
Proof.
  intros (E11 & _ & _ & _ & _ & _ & _ & _ & E33) E H1 H3 S. cbn [axes_of m11 m33] in E11, E33. pose proof lit9 as L9.
  assert (T : forall a b, Rabs (a - b) <= e -> 102 / 100000000000 <= Rabs b -> rr (1 / 1000000000) <= Rabs a).
  { intros a b AB B. pose proof (Rabs_triang (b - a) a) as T. replace (b - a + a) with b in T by ring. rewrite Rabs_minus_sym in T. lra. }
  pose proof (T _ _ E11 H1) as G1. pose proof (T _ _ E33 H3) as G3. unfold dcm2Euler_f.
  destruct (Rltb'_spec (Rabs (m11 A)) (rr (1 / 1000000000))) as [[Z B]|[_ B]]; [exfalso; lra|rewrite B; clear B].
  destruct (Rltb'_spec (Rabs (m33 A)) (rr (1 / 1000000000))) as [[Z B]|[_ B]]; [exfalso; lra|rewrite B; clear B]. cbn [orb].
  destruct (Rltb'_spec 1 (m13 A)) as [[Z B]|[_ B]]; [exfalso; lra|rewrite B; clear B]. destruct (Rltb'_spec (m13 A) (-1)) as [[Z B]|[_ B]]; [exfalso; lra|rewrite B; clear B]. cbn [orb].
  unfold Rdivc. destruct (Req_EM_T (m33 A) 0) as [Z|_]; [rewrite Z, Rabs_R0 in G3; lra|].
  destruct (Req_EM_T (m11 A) 0) as [Z|_]; [rewrite Z, Rabs_R0 in G1; lra|]. cbn [bind]. eexists; reflexivity.
Qed.
(** ** There and back *)
Lemma axes_euler r p h : snd (euler2Dcm (V3 r p h)) = axes_of r p h.
Proof. unfold euler2Dcm, axes_of, mmul, euler_R1, euler_R2, euler_R3, row1, row2, row3, col1, col2, col3, dot. cbn [snd vx vy vz m11 m12 m13 m21 m22 m23 m31 m32 m33]. f_equal; ring. Qed.
Lemma close_entries e A B : close_to e A (mvmul B) -> entries_within e A B.
Proof.
  intros H.
  assert (C : forall v, norm v = 1 -> Rabs (vx (mvmul A v) - vx (mvmul B v)) <= e /\ Rabs (vy (mvmul A v) - vy (mvmul B v)) <= e /\ Rabs (vz (mvmul A v) - vz (mvmul B v)) <= e).
  { intros v N. pose proof (H v) as K. rewrite N, Rmult_1_r in K. set (w := vsub (mvmul A v) (mvmul B v)) in *.
    assert (Q : forall t, t * t <= dot w w -> Rabs t <= e).
    { intros t T. apply Rle_trans with (norm w); [|exact K]. unfold norm. rewrite <- sqrt_Rsqr_abs. apply sqrt_le_1_alt. exact T. }
    assert (DW : dot w w = vx w * vx w + vy w * vy w + vz w * vz w) by reflexivity.
    pose proof (Rle_0_sqr (vx w)) as X. pose proof (Rle_0_sqr (vy w)) as Y. pose proof (Rle_0_sqr (vz w)) as Z. unfold Rsqr in X, Y, Z.
    split; [change (Rabs (vx w) <= e)|split; [change (Rabs (vy w) <= e)|change (Rabs (vz w) <= e)]]; apply Q; lra. }
  assert (N1 : norm (V3 1 0 0) = 1) by (unfold norm, dot; cbn; replace (1 * 1 + 0 * 0 + 0 * 0) with 1 by ring; apply sqrt_1).
  assert (N2 : norm (V3 0 1 0) = 1) by (unfold norm, dot; cbn; replace (0 * 0 + 1 * 1 + 0 * 0) with 1 by ring; apply sqrt_1).
  assert (N3 : norm (V3 0 0 1) = 1) by (unfold norm, dot; cbn; replace (0 * 0 + 0 * 0 + 1 * 1) with 1 by ring; apply sqrt_1).
  destruct (C _ N1) as (A1 & A2 & A3). destruct (C _ N2) as (B1 & B2 & B3). destruct (C _ N3) as (D1 & D2 & D3).
  unfold mvmul, row1, row2, row3, dot in *. cbn [vx vy vz] in *. rewrite ?Rmult_0_r, ?Rmult_1_r, ?Rplus_0_r, ?Rplus_0_l in *.
  repeat split; assumption.
Qed.
Lemma euler_there_and_back r p h e0 : - (PI / 2) <= r <= PI / 2 -> - (PI / 2) <= p <= PI / 2 -> 0 <= h <= PI ->
  1 / 1000000 <= cos p -> 102 / 100000000000 <= cos p * Rabs (cos h) -> 102 / 100000000000 <= cos r * cos p ->
  exists e', dcm2Euler_f F at_ as_ (snd (euler2Dcm_f F (V3 r p h))) e0 = Ret (true, e') /\
    Rabs (vx e' - r) <= 4 / 100000000000000 / cos p /\ Rabs (vy e' - p) <= 9 / 100000000000000 / cos p /\
    (exists k, Rabs (vz e' - h - IZR k * PI) <= 4 / 100000000000000 / cos p) /\
    (5 / 100000000000000 <= cos p * sin h -> Rabs (vz e' - h) <= 4 / 100000000000000 / cos p).
Proof.
  intros R P HH C H1 H3. pose proof u64_tight as U.
  pose proof (close_entries _ _ _ (euler_near F (V3 r p h) HF)) as EN. rewrite axes_euler in EN.
  set (A := snd (euler2Dcm_f F (V3 r p h))) in *.
  assert (S : -1 <= m13 A <= 1).
  { destruct EN as (_ & _ & E13 & _). cbn [axes_of m13] in E13. apply Rabs_le_inv in E13.
    assert (Q : sin p * sin p + cos p * cos p = 1) by (pose proof (sin2_cos2 p); unfold Rsqr in *; lra).
    assert (sin p * sin p <= 1 - 1 / 1000000000000) by nra.
    assert (- (1 - 4 / 10000000000000) <= sin p <= 1 - 4 / 10000000000000) by nra. lra. }
  destruct (euler_accepts r p h A (210 * u) e0 EN) as (e' & K); try lra.
  { rewrite Rabs_mult, (Rabs_right (cos p)) by lra. exact H1. }
  { rewrite Rabs_right by lra. exact H3. }
  exists e'. split; [exact K|].
  assert (D : forall a b c, a <= b -> c <= a / cos p -> c <= b / cos p).
  { intros a b c AB K'. eapply Rle_trans; [exact K'|]. apply Rmult_le_compat_r; [left; apply Rinv_0_lt_compat; lra|exact AB]. }
  destruct (euler_errors r p h A (210 * u) e0 e' EN ltac:(lra) ltac:(lra) ltac:(lra) R P ltac:(lra) K) as (X & Y & (k & Z) & _).
  split; [refine (D _ _ _ _ X); lra|]. split; [refine (D _ _ _ _ Y); lra|]. split; [exists k; refine (D _ _ _ _ Z); lra|].
  intros G. refine (D _ _ _ _ (heading_errors r p h A (210 * u) e0 e' EN ltac:(lra) ltac:(lra) ltac:(lra) P HH ltac:(lra) K)). lra.
Qed.
(** ** After a run of the navigator *)
Lemma euler_run rph l r p h A' e0 e' : (forall d, List.In d l -> bpow radix2 (-480) <= norm d <= 4) ->
  let e := 2100 * u * (INR (length l) + 1) in
  400 * e <= cos p -> 9 / 10000000000 <= cos p -> - (PI / 2) <= r <= PI / 2 -> - (PI / 2) <= p <= PI / 2 -> 2 * e + 10 * u <= cos r * cos p ->
  (forall v, mvmul (axes_of r p h) v = mvmul (snd (euler2Dcm rph)) (List.fold_right rotvec v l)) ->
  attitude_f F (snd (euler2Dcm_f F rph)) l = Ret A' -> dcm2Euler_f F at_ as_ A' e0 = Ret (true, e') ->
  Rabs (vx e' - r) <= (3 / 2 * e + 7 * u) / cos p /\ Rabs (vy e' - p) <= (7 / 2 * e + 2 * u) / cos p /\
  (exists k, Rabs (vz e' - h - IZR k * PI) <= (3 / 2 * e + 16 * u) / cos p) /\
  (0 <= h <= PI -> 2 * e + 26 * u <= cos p * sin h -> Rabs (vz e' - h) <= (3 / 2 * e + 16 * u) / cos p).
Proof.
  intros HD e E4 CP R P R3 HV HR H. pose proof u64_tight as U. pose proof (pos_INR (length l)) as N. pose proof (COS_bound p) as C1.
  assert (E : 0 <= e) by (unfold e; nra).
  destruct (init_chain F rph l HF HD ltac:(fold e; lra)) as (B & HB & CB). fold e in CB. rewrite HR in HB. injection HB as <-.
  assert (EN : entries_within e A' (axes_of r p h)) by (apply close_entries; intros v; rewrite HV; apply CB).
  destruct (euler_errors r p h A' e e0 e' EN E E4 CP R P R3 H) as (X & Y & Z & _).
  split; [exact X|]. split; [exact Y|]. split; [exact Z|]. intros HH S.
  exact (heading_errors r p h A' e e0 e' EN E E4 CP P HH S H).
Qed.
End S.

(** ** binary64 and exact arithmetic *)
Lemma atan_64_ok : atan_ok atan_64.
Proof.
  intros x. unfold atan_64. eapply Rle_trans; [apply rnd64_model|]. pose proof u64_tight. pose proof eta_u. pose proof PI_bounds. destruct (atan_bound x).
  assert (u64 * Rabs (atan x) <= u64 * (16 / 10)) by (apply Rmult_le_compat_l; [lra|]; apply Rabs_le; lra). lra.
Qed.
Lemma asin_64_ok : asin_ok asin_64.
Proof.
  intros x _. unfold asin_64. eapply Rle_trans; [apply rnd64_model|]. pose proof u64_tight. pose proof eta_u. pose proof PI_bounds. destruct (asin_bound x).
  assert (u64 * Rabs (asin x) <= u64 * (16 / 10)) by (apply Rmult_le_compat_l; [lra|]; apply Rabs_le; lra). lra.
Qed.
Lemma euler_exact A e0 : dcm2Euler_f exact_ops atan asin A e0 = dcm2Euler A e0.
Proof.
  unfold dcm2Euler_f, dcm2Euler. cbn [frnd exact_ops].
  destruct (orb _ _); [reflexivity|]. 
  destruct (Rltb'_spec 1 (m13 A)) as [[Z B]|[Z B]]; rewrite B; clear B; [reflexivity|].
  destruct (Rltb'_spec (m13 A) (-1)) as [[Z2 B]|[Z2 B]]; rewrite B; clear B; [reflexivity|]. cbn [orb].
  unfold asinc, Rdivc. destruct (Req_EM_T (m33 A) 0); [reflexivity|]. cbn [bind].
  destruct (Rlt_dec (m13 A) (-1)); [lra|]. destruct (Rlt_dec 1 (m13 A)); [lra|]. reflexivity.
Qed.
(** ** The jump of the heading *)
Lemma atan_neg_low x : 0 <= x <= 1 -> atan (- x) <= - x / 2.
Proof.
  intros X. destruct (Req_dec x 0) as [->|N]; [rewrite Ropp_0, atan_0; lra|].
  destruct (MVT_abs atan (fun z => / (1 + z ^ 2)) 0 (- x)) as (c & E & C & D); [intros; apply derivable_pt_lim_atan|].
  rewrite Rmin_right in C by lra. rewrite Rmax_left in D by lra. rewrite atan_0, !Rminus_0_r in E.
  assert (A : atan (- x) < 0) by (rewrite <- atan_0; apply atan_increasing; lra).
  rewrite Rabs_left, (Rabs_left (- x)) in E by lra.
  assert (H : / 2 <= / (1 + c ^ 2)) by (apply Rinv_le_contravar; nra).
  rewrite Rabs_right in E by lra. nra.
Qed.
Definition tilted : mat3 := M3 1 (- bpow radix2 (-1000)) 0 0 1 0 0 0 1.
Lemma heading_jumps e0 : exists a b, dcm2Euler_f binary64_ops atan_64 asin_64 m3id e0 = Ret (true, a) /\
  dcm2Euler_f binary64_ops atan_64 asin_64 tilted e0 = Ret (true, b) /\ entries_within (bpow radix2 (-1000)) tilted m3id /\ vz a = 0 /\ 3 < vz b.
Proof.
  pose proof (lit9 _ binary64_ok) as L9. cbn [frnd binary64_ops] in L9. set (t := bpow radix2 (-1000)).
  assert (T : 0 < t <= 1 / 1000). { unfold t. split; [apply bpow_gt_0|]. apply Rle_trans with (bpow radix2 (-10)); [apply bpow_le; lia|]. change (bpow radix2 (-10)) with (/ 1024). lra. }
  assert (Z0 : rnd64 0 = 0) by (unfold rnd64; apply round_0; apply valid_rnd_N).
  assert (RT : rnd64 (- t) = - t).
  { replace (- t) with (IZR (-1) * bpow radix2 (-1000)) by (fold t; ring). apply rnd64_exact; lia. }
  assert (AT : rnd64 (atan (- t)) <= - (t / 2)).
  { replace (- (t / 2)) with (IZR (-1) * bpow radix2 (-1001)).
    2:{ unfold t. replace (-1000)%Z with (-1001 + 1)%Z by lia. rewrite bpow_plus. change (bpow radix2 1) with 2. field. }
    rewrite <- (rnd64_exact (-1) (-1001)) by lia. apply rnd64_le.
    apply Rle_trans with (- t / 2); [apply atan_neg_low; lra|].
    unfold t. replace (-1000)%Z with (-1001 + 1)%Z by lia. rewrite bpow_plus. change (bpow radix2 1) with 2. lra. }
  unfold dcm2Euler_f, tilted, m3id. cbn [m11 m12 m13 m23 m33 frnd binary64_ops]. fold t.
  rewrite (Rltb'_false (Rabs 1)) by (rewrite Rabs_R1; lra). cbn [orb].
  rewrite (Rltb'_false 1 0), (Rltb'_false 0 (-1)) by lra. cbn [orb]. unfold Rdivc. destruct (Req_EM_T 1 0); [lra|]. cbn [bind].
  unfold atan_64. replace (0 / 1) with 0 by field. replace (- t / 1) with (- t) by field. rewrite Z0, RT, atan_0, Z0.
  destruct (Rlt_dec 0 0); [lra|]. destruct (Rlt_dec (rnd64 (atan (- t))) 0); [|lra].
  eexists _, _. split; [reflexivity|]. split; [reflexivity|]. cbn [vz]. split.
  - unfold entries_within. cbn [m11 m12 m13 m21 m22 m23 m31 m32 m33]. rewrite !Rminus_eq_0, Rabs_R0, Rminus_0_r, Rabs_Ropp, (Rabs_right t) by lra. repeat split; lra.
  - split; [reflexivity|]. pose proof (half_turn _ binary64_ok (rnd64 (atan (- t)))) as K. cbn [frnd binary64_ops] in K.
    assert (L : - (1 / 500) <= rnd64 (atan (- t))).
    { pose proof (atan_64_ok (- t)) as Q. unfold atan_64 in Q. apply Rabs_le_inv in Q. pose proof u64_tight.
      assert (- t <= atan (- t)). { rewrite atan_opp. assert (atan t <= t); [|lra]. destruct (MVT_abs atan (fun z => / (1 + z ^ 2)) 0 t) as (c & E & C & D); [intros; apply derivable_pt_lim_atan|].
        rewrite atan_0, !Rminus_0_r, (Rabs_right t) in E by lra. pose proof (Rle_abs (atan t)).
        assert (/ (1 + c ^ 2) <= 1) by (rewrite <- Rinv_1; apply Rinv_le_contravar; nra).
        assert (0 < / (1 + c ^ 2)) by (apply Rinv_0_lt_compat; nra). rewrite (Rabs_right (/ _)) in E by lra. nra. }
      lra. }
    pose proof PI_bounds. pose proof u64_tight. pose proof (K ltac:(lra)) as K'. apply Rabs_le_inv in K'. lra.
Qed.
