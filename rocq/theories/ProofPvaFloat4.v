(** The error dynamics in rounded arithmetic against the exact ones. *)
From Coq Require Import Reals ZArith List Lra Lia Psatz.
From Flocq Require Import Core.
From Verif Require Import Base BaseVec SpecPva ModelGravity ModelNavUtils ModelPva ModelStrapdownFloat ModelFramesFloat ModelGravityFloat ModelCoarseFloat ModelPvaFloat SpecFloatOps SpecPvaFloat
  ProofVec ProofPi ProofFrames ProofFrames2 ProofStrapdownFloat2 ProofNavUtils ProofPva ProofStrapdownFloat ProofFramesFloat ProofGravityFloat ProofNavFloat ProofPvaFloat ProofPvaFloat2 ProofPvaFloat3.
Import ListNotations.
Open Scope R_scope.

(** Rows of two lists of lists, entry by entry. *)
Fixpoint rclose (k : R) (x y : list R) : Prop :=
  match x, y with [], [] => True | a :: x, b :: y => Rabs (a - b) <= k /\ rclose k x y | _, _ => False end.
Fixpoint lclose (t : nat -> R) (i : nat) (x y : list (list R)) : Prop :=
  match x, y with [], [] => True | a :: x, b :: y => rclose (t i * u64) a b /\ lclose t (S i) x y | _, _ => False end.
Lemma rclose_nth k : 0 <= k -> forall x y j, rclose k x y -> Rabs (nth j x 0 - nth j y 0) <= k.
Proof.
  intros K x. induction x as [|a x IH]; intros [|b y] j H; cbn [rclose] in H; try contradiction.
  - destruct j; cbn [nth]; rewrite Rminus_eq_0, Rabs_R0; exact K.
  - destruct H as (A & B). destruct j; cbn [nth]; [exact A|]. now apply IH.
Qed.
Lemma lclose_nth t : (forall i, 0 <= t i) -> forall x y i j n, lclose t n x y -> Rabs (nth j (nth i x []) 0 - nth j (nth i y []) 0) <= t (n + i)%nat * u64.
Proof.
  intros K x. pose proof u64_bounds as U. induction x as [|a x IH]; intros [|b y] i j n H; cbn [lclose] in H; try contradiction.
  - destruct i; cbn [nth]; rewrite Rminus_eq_0, Rabs_R0; apply Rmult_le_pos; try apply K; lra.
  - destruct H as (A & B). destruct i; cbn [nth].
    + rewrite Nat.add_0_r. apply rclose_nth; [apply Rmult_le_pos; [apply K|lra]|exact A].
    + rewrite <- Nat.add_succ_comm. now apply IH.
Qed.
Lemma F_tol_pos i : 0 <= ned_F_tol i.
Proof. unfold ned_F_tol. destruct (Nat.ltb i 5); [lra|]. destruct (Nat.eqb i 5); lra. Qed.
Lemma G_tol_pos i : 0 <= ned_G_tol i.
Proof. unfold ned_G_tol. destruct (Nat.ltb i 3); [lra|]. destruct (Nat.ltb i 5); [lra|]. destruct (Nat.eqb i 5); lra. Qed.

Section Ned.
Variable F : FloatOps. Hypothesis HF : float_ok F.
Variable pow2 : R -> R. Hypothesis HP : pow2_ok pow2.
Variable pow15 : R -> R. Hypothesis H15 : forall x, 1 / 2 <= x <= 2 -> Rabs (pow15 x - Rpower x (3 / 2)) <= 4 * u64.
Variables powh tanf : R -> R. Hypothesis Hh : powh_ok powh. Hypothesis Ht : tan_ok tanf.
Let r := frnd F.

Lemma G_close E D RS : (forall b c, b = c -> Rabs (b - c) <= 0 * u64) ->
  (forall v, Rabs (vx v) <= 2 -> Rabs (vy v) <= 2 -> Rabs (vz v) <= 2 ->
    Rabs (fdot F (row1 E) v - dot (row1 D) v) <= 1 / 100 * u64 /\ Rabs (fdot F (row2 E) v - dot (row2 D) v) <= 1 / 100 * u64 /\ Rabs (fdot F (row3 E) v - dot (row3 D) v) <= 60 * u64) ->
  (let k := 1 / 100 * u64 in Rabs (m11 E - m11 D) <= k /\ Rabs (m12 E - m12 D) <= k /\ Rabs (m13 E - m13 D) <= k /\ Rabs (m21 E - m21 D) <= k /\ Rabs (m22 E - m22 D) <= k /\ Rabs (m23 E - m23 D) <= k) ->
  (let k := 60 * u64 in Rabs (m31 E - m31 D) <= k /\ Rabs (m32 E - m32 D) <= k /\ Rabs (m33 E - m33 D) <= k) ->
  cells_le 2 RS ->
  rows_within ned_G_tol (set_block (set_block (set_block (mx_zero 9 9) 0 0 (mneg RS)) 3 3 (mmul_f F E RS)) 3 6 E)
    (set_block (set_block (set_block (mx_zero 9 9) 0 0 (mneg RS)) 3 3 (mmul D RS)) 3 6 D).
Proof.
  intros Z A B C (R1 & R2 & R3 & R4 & R5 & R6 & R7 & R8 & R9). cbv zeta in B, C. destruct B as (B1 & B2 & B3 & B4 & B5 & B6). destruct C as (C1 & C2 & C3).
  destruct (A (col1 RS) R1 R4 R7) as (X11 & X21 & X31). destruct (A (col2 RS) R2 R5 R8) as (X12 & X22 & X32). destruct (A (col3 RS) R3 R6 R9) as (X13 & X23 & X33).
  split; [reflexivity|]. split; [reflexivity|]. intros i j I J. change (i < 9)%nat in I. change (j < 9)%nat in J.
  assert (ZZ : forall x, Rabs (x - x) <= ned_G_tol i * u64) by (intros x; rewrite Rminus_eq_0, Rabs_R0; apply Rmult_le_pos; [apply G_tol_pos|pose proof u64_bounds; lra]).
  assert (EI : (i < 3 \/ 5 < i \/ i = 3 \/ i = 4 \/ i = 5)%nat) by lia.
  destruct EI as [I1|[I1|I1]].
  - unfold set_block, mx_zero. cbn [mx_at mx_rows mx_cols]. replace (Nat.leb 3 i) with false by (symmetry; apply Nat.leb_gt; lia). cbn [andb]. apply ZZ.
  - unfold set_block, mx_zero. cbn [mx_at mx_rows mx_cols]. replace (Nat.ltb i (3 + 3)) with false by (symmetry; apply Nat.ltb_ge; lia). rewrite Bool.andb_false_r. cbn [andb]. apply ZZ.
  - do 9 (destruct j as [|j]; [destruct I1 as [I1|[I1|I1]]; subst i; first [apply ZZ|assumption]|]). lia.
Qed.

Variables a1 a2 a3 lat lon h latDot lonDot hDot latDDot lonDDot hDDot : R. Variables GN RS : mat3.
Hypothesis L1 : Rabs a1 <= 1000. Hypothesis L2 : Rabs a2 <= 1000. Hypothesis L3 : Rabs a3 <= 1000.
Hypothesis L4 : Rabs latDot <= 1 / 1000. Hypothesis L5 : Rabs lonDot <= 1 / 100. Hypothesis L6 : Rabs hDot <= 1200.
Hypothesis L7 : Rabs latDDot <= 1 / 1000. Hypothesis L8 : Rabs lonDDot <= 1 / 1000. Hypothesis L9 : Rabs (m33 GN) <= 1.
Hypothesis La : Rabs lat <= 3 / 2. Hypothesis Lh : Rabs h <= 110000. Hypothesis LR : cells_le 2 RS.

Let eSq := 2 * gp_f - gp_f * gp_f.
Let eSq' := r (r (2 * gp_f_f F) - pow2 (gp_f_f F)).
Let w := 1 - eSq * (sin lat * sin lat).
Let w' := r (1 - r (eSq' * pow2 (fsin F lat))).
Let sq := sqrt w. Let sq' := r (sqrt w').
Let N := gp_a / sq. Let N' := r (gp_a_f / sq').
Let M := gp_a * (1 - eSq) / Rpower w (3 / 2). Let M' := r (r (gp_a_f * r (1 - eSq')) / pow15 w').
Let Ra := sqrt (N * M) + h. Let Ra' := r (powh (r (N' * M')) + h).
Let p := M + h. Let p' := r (M' + h). Let q := (N + h) * cos lat. Let q' := r (r (N' + h) * fcos F lat).
Lemma ned_close F0 G0 : size9 F0 -> size9 G0 -> exists A B A' B',
  nedErrorDynamics (V3 a1 a2 a3) GN RS (V3 lat lon h) (V3 latDot lonDot hDot) (V3 latDDot lonDDot hDDot) F0 G0 = Ret (true, (A, B)) /\
  nedErrorDynamics_f F pow2 pow15 powh tanf (V3 a1 a2 a3) GN RS (V3 lat lon h) (V3 latDot lonDot hDot) (V3 latDDot lonDDot hDDot) F0 G0 = Ret (true, (A', B')) /\
  size9 A /\ size9 B /\ rows_within ned_F_tol A' A /\ rows_within ned_G_tol B' B.
Proof.
  intros S1 S2. apply is9_inv in S1. apply is9_inv in S2. pose proof u64_bounds as U.
  assert (Alat : ap lat lat 10 (3 / 2)) by (eapply ap_le; [apply (ap_exact lat); exact La|lra|lra]).
  destruct (AN F HF pow2 HP lat lat Alat) as (N1 & N2 & N3). destruct (AM F HF pow2 HP pow15 H15 0 ltac:(lra) lat lat Alat) as (M1 & M2 & M3').
  change (ap N' N 45000000 6450000) in N2. change (6370000 <= N) in N3. change (ap M' M 150000000 6480000) in M2. change (6330000 <= M) in M3'. change (sq' <> 0) in N1. change (pow15 w' <> 0) in M1.
  pose proof (w_range lat) as W. change (99 / 100 <= w <= 1) in W. pose proof (sq_range lat) as SQ. change (99 / 100 <= sq <= 1) in SQ.
  destruct (Asq F HF pow2 HP lat lat Alat) as (W0 & _ & _). change (0 <= w') in W0.
  destruct (A15 F HF pow2 HP pow15 H15 0 ltac:(lra) lat lat Alat) as (_ & P15). change (98 / 100 <= Rpower w (3 / 2)) in P15.
  pose proof (c_low 0 ltac:(lra) lat lat Alat) as CL.
  destruct (rad_ap F HF N' N M' M h N2 N3 M2 M3' Lh powh Hh) as (R1 & R2). change (ap Ra' Ra 235000000 6750000) in R1. change (6180000 <= Ra) in R2.
  destruct (D_ap F HF N' N M' M h N2 N3 M2 M3' Lh (fcos F lat) (cos lat) (ap_cos F HF lat) CL) as (E & E1 & E11 & E22 & E33 & E12 & E13 & E21 & E23 & E31 & E32).
  pose proof (D_exact N M h N3 M3' Lh (cos lat) CL) as DE. pose proof (pq_low N M h N3 M3' Lh (cos lat) CL) as (PL & QL).
  change (minvc_f F (M3 p' 0 0 0 q' 0 0 0 (-1)) = Ret E) in E1. change (6200000 <= p) in PL. change (434000 <= q) in QL.
  change (Rabs (m11 E - 1 / p) <= u64 / 500) in E11. change (Rabs (m22 E - 1 / q) <= u64 / 500) in E22.
  change (minvc (M3 p 0 0 0 q 0 0 0 (-1)) = Ret (M3 (1 / p) 0 0 0 (1 / q) 0 0 0 (-1))) in DE.
  pose proof (ap_tan tanf lat Ht La) as T3. destruct (s2c2 F HF lat La) as (T4 & T5). pose proof (ap_sin F HF lat) as T1. pose proof (ap_cos F HF lat) as T2.
  pose proof (R0' F HF a1 (ap_exact _ _ L1) Ra' Ra R1 R2) as RN.
  destruct (dc F HF (fcos F lat) (cos lat) T2 CL Ra' Ra R1 R2 _ _ _ _ (ap_exact _ _ L1)) as (RC & _).
  pose proof (row_a F HF lonDot (ap_exact _ _ L5) _ _ _ _ T1 T2) as (A1 & A2 & A3 & A4 & A5 & A6).
  pose proof (row_b F HF a1 a2 a3 latDot lonDot hDot latDDot (ap_exact _ _ L1) (ap_exact _ _ L2) (ap_exact _ _ L3) (ap_exact _ _ L4) (ap_exact _ _ L5) (ap_exact _ _ L6) (ap_exact _ _ L7) _ _ _ _ T4 T5 _ _ R1 R2) as (B1 & B2 & B3 & B4 & B5 & B6 & B7).
  pose proof (row_c F HF a1 a3 latDot lonDot hDot lonDDot (ap_exact _ _ L1) (ap_exact _ _ L3) (ap_exact _ _ L4) (ap_exact _ _ L5) (ap_exact _ _ L6) (ap_exact _ _ L8) _ _ _ _ T2 T3 CL _ _ R1 R2) as (C1 & C2 & C3 & C4 & C5 & C6 & C7).
  pose proof (row_d F HF pow2 HP latDot lonDot (m33 GN) (ap_exact _ _ L4) (ap_exact _ _ L5) (ap_exact _ _ L9) _ _ _ _ T2 T4 _ _ R1) as (D1 & D2 & D3 & D4).
  assert (RCE : Ra * cos lat <> 0) by (apply Rmult_integral_contrapositive; lra).
  unfold nedErrorDynamics, nedErrorDynamics_f. rewrite S1, S2. cbn [negb vx vy vz]. cbv zeta. change (frnd F) with r in RC, A1, A2, A3, A4, B1, B2, B3, B4, B5, B6, B7, C1, C2, C3, C4, C5, C6, C7, D1, D2, D3, D4 |- *.
  unfold tanc. rewrite (Rdivc_ok (sin lat)) by lra. cbn [bind]. fold (tan lat).
  change (r (r (2 * gp_f_f F) - pow2 (gp_f_f F))) with eSq'. change (2 * gp_f - gp_f * gp_f) with eSq.
  change (1 - eSq * (sin lat * sin lat)) with w. change (r (1 - r (eSq' * pow2 (fsin F lat)))) with w'.
  rewrite (sqrtc_ok w) by lra. rewrite (sqrtc_ok w') by lra. cbn [bind]. change (sqrt w) with sq. change (r (sqrt w')) with sq'.
  rewrite (Rdivc_ok gp_a sq) by lra. rewrite (Rdivc_ok gp_a_f sq') by exact N1. cbn [bind].
  rewrite (Rdivc_ok _ (Rpower w (3 / 2))) by lra. rewrite (Rdivc_ok _ (pow15 w')) by exact M1. cbn [bind].
  change (gp_a / sq) with N. change (r (gp_a_f / sq')) with N'. change (gp_a * (1 - eSq) / Rpower w (3 / 2)) with M. change (r (r (gp_a_f * r (1 - eSq')) / pow15 w')) with M'.
  rewrite (sqrtc_ok (N * M)) by (apply Rmult_le_pos; lra). cbn [bind]. change (sqrt (N * M) + h) with Ra. change (r (powh (r (N' * M')) + h)) with Ra'.
  change (M + h) with p. change (r (M' + h)) with p'. change ((N + h) * cos lat) with q. change (r (r (N' + h) * fcos F lat)) with q'.
  rewrite !(Rdivc_ok _ Ra) by lra. rewrite !(Rdivc_ok _ Ra') by exact RN. rewrite !(Rdivc_ok _ (- Ra)) by lra. rewrite !(Rdivc_ok _ (- Ra')) by (intros X; apply RN; lra).
  rewrite !(Rdivc_ok _ (Ra * cos lat)) by exact RCE. rewrite !(Rdivc_ok _ (r (Ra' * fcos F lat))) by exact RC. cbn [bind]. rewrite E1, DE. cbn [bind].
  do 4 eexists. split; [reflexivity|]. split; [reflexivity|]. split; [split; reflexivity|]. split; [split; reflexivity|].
  assert (ZZ : forall x k, 0 <= k -> Rabs (x - x) <= k * u64) by (intros x k K; rewrite Rminus_eq_0, Rabs_R0; apply Rmult_le_pos; lra).
  split.
  - split; [reflexivity|]. split; [reflexivity|]. intros i j _ _. unfold mx_of_rows. cbn [mx_at].
    apply (lclose_nth ned_F_tol F_tol_pos _ _ i j 0).
    change (ned_F_tol 0) with 2. unfold two, big in *. cbn [lclose]. unfold ned_F_tol. cbn [Nat.ltb Nat.leb Nat.eqb rclose].
    repeat match goal with |- _ /\ _ => split end; try exact I; first [assumption|apply ZZ; lra].
  - assert (IP : 0 < 1 / p <= 1 / 400000) by (split; [apply Rdiv_lt_0_compat; lra|unfold Rdiv; rewrite !Rmult_1_l; apply Rinv_le_contravar; lra]).
    assert (IQ : 0 < 1 / q <= 1 / 400000) by (split; [apply Rdiv_lt_0_compat; lra|unfold Rdiv; rewrite !Rmult_1_l; apply Rinv_le_contravar; lra]).
    apply G_close.
    + intros b c ->. rewrite Rminus_eq_0, Rabs_R0. lra.
    + intros v X Y Z. unfold dot, row1, row2, row3. cbn [vx vy vz m11 m12 m13 m21 m22 m23 m31 m32 m33].
      replace (1 / p * vx v + 0 * vy v + 0 * vz v) with (1 / p * vx v) by ring. replace (0 * vx v + 1 / q * vy v + 0 * vz v) with (1 / q * vy v) by ring. replace (0 * vx v + 0 * vy v + -1 * vz v) with (-1 * vz v) by ring.
      split; [|split].
      * exact (row1_near F HF (1 / p) IP E E11 E12 E13 v X Y Z).
      * exact (row2_near F HF (1 / q) IQ E E22 E21 E23 v X Y Z).
      * exact (row3_near F HF E E33 E31 E32 v X Y Z).
    + cbv zeta. cbn [m11 m12 m13 m21 m22 m23 m31 m32 m33]. repeat split; eapply Rle_trans; try eassumption; lra.
    + cbv zeta. cbn [m11 m12 m13 m21 m22 m23 m31 m32 m33]. repeat split; eapply Rle_trans; try eassumption; lra.
    + exact LR.
Qed.
End Ned.

(** The Earth-fixed error dynamics. *)
Section Ecef.
Variable F : FloatOps. Hypothesis HF : float_ok F.
Variables W g : R. Hypothesis W0 : 0 <= W. Hypothesis g0 : 0 <= g.
Lemma tw x : Rabs x <= W -> Rabs (frnd F (- 2 * x) - - 2 * x) <= (2 * W + 16 * (W * W) + 2 * g + 1 / 1000000000000000) * u64.
Proof.
  intros A. pose proof (proj1 HF (- 2 * x)) as B. rewrite Rabs_mult, (Rabs_left (- 2)) in B by lra. pose proof eta_e20 as E. pose proof u64_bounds as U. unfold e20 in E.
  eapply Rle_trans; [exact B|]. assert (0 <= W * W) by (apply Rmult_le_pos; lra). assert (u64 * (- - 2 * Rabs x) <= u64 * (2 * W)) by (apply Rmult_le_compat_l; lra).
  assert (0 <= u64 * (W * W)) by (apply Rmult_le_pos; lra). assert (0 <= u64 * g) by (apply Rmult_le_pos; lra). lra.
Qed.
Lemma cen a b z : Rabs (vx a) <= W -> Rabs (vy a) <= W -> Rabs (vz a) <= W -> Rabs (vx b) <= W -> Rabs (vy b) <= W -> Rabs (vz b) <= W -> Rabs z <= g ->
  Rabs (- frnd F (fdot F a b - z) - - (dot a b - z)) <= (2 * W + 16 * (W * W) + 2 * g + 1 / 1000000000000000) * u64.
Proof.
  intros A1 A2 A3 B1 B2 B3 Z. assert (P : forall x y, Rabs x <= W -> Rabs y <= W -> Rabs (x * y) <= W * W) by (intros x y X Y; rewrite Rabs_mult; apply Rmult_le_compat; try apply Rabs_pos; lra).
  pose proof (P _ _ A1 B1) as P1. pose proof (P _ _ A2 B2) as P2. pose proof (P _ _ A3 B3) as P3. pose proof (proj1 (proj2 HF) a b) as D. pose proof eta_e20 as E. pose proof u64_bounds as U. unfold e20 in E.
  pose proof eta_pos as E0. assert (WW : 0 <= W * W) by (apply Rmult_le_pos; lra). set (s := W * W) in *.
  assert (D1 : Rabs (fdot F a b - dot a b) <= 12 * u64 * s + 8 * eta64).
  { eapply Rle_trans; [exact D|]. assert (4 * u64 * (Rabs (vx a * vx b) + Rabs (vy a * vy b) + Rabs (vz a * vz b)) <= 4 * u64 * (3 * s)) by (apply Rmult_le_compat_l; lra). lra. }
  assert (D2 : Rabs (dot a b) <= 3 * s).
  { unfold dot. eapply Rle_trans; [apply Rabs_triang|]. eapply Rle_trans; [apply Rplus_le_compat_r, Rabs_triang|]. lra. }
  pose proof (proj1 HF (fdot F a b - z)) as R1.
  assert (D3 : Rabs (fdot F a b - z) <= 3 * s + g + (12 * u64 * s + 8 * eta64)).
  { replace (fdot F a b - z) with ((fdot F a b - dot a b) + dot a b + - z) by ring. eapply Rle_trans; [apply Rabs_triang|]. eapply Rle_trans; [apply Rplus_le_compat_r, Rabs_triang|]. rewrite Rabs_Ropp. lra. }
  replace (- frnd F (fdot F a b - z) - - (dot a b - z)) with (- ((frnd F (fdot F a b - z) - (fdot F a b - z)) + (fdot F a b - dot a b))) by ring. rewrite Rabs_Ropp.
  eapply Rle_trans; [apply Rabs_triang|]. assert (u64 * Rabs (fdot F a b - z) <= u64 * (3 * s + g + (12 * u64 * s + 8 * eta64))) by (apply Rmult_le_compat_l; lra).
  assert (u64 * (12 * u64 * s + 8 * eta64) <= u64 * (1 / 100 * s + 8 * eta64)).
  { apply Rmult_le_compat_l; [lra|]. apply Rplus_le_compat_r, Rmult_le_compat_r; lra. }
  assert (u64 * eta64 <= 1 * eta64) by (apply Rmult_le_compat_r; lra). assert (0 <= u64 * s) by (apply Rmult_le_pos; lra). assert (0 <= u64 * g) by (apply Rmult_le_pos; lra). assert (0 <= u64 * W) by (apply Rmult_le_pos; lra). lra.
Qed.
Lemma ecef_close a GE RS Om F0 G0 : size9 F0 -> size9 G0 -> cells_le W Om -> cells_le g GE -> exists A B A',
  ecefErrorDynamics a GE RS Om F0 G0 = (true, (A, B)) /\ ecefErrorDynamics_f F a GE RS Om F0 G0 = (true, (A', B)) /\ size9 A /\ size9 B /\ rows_within (ecef_F_tol W g) A' A.
Proof.
  intros S1 S2 (O1 & O2 & O3 & O4 & O5 & O6 & O7 & O8 & O9) (H1 & H2 & H3 & H4 & H5 & H6 & H7 & H8 & H9). apply is9_inv in S1. apply is9_inv in S2. unfold ecefErrorDynamics, ecefErrorDynamics_f. rewrite S1, S2. cbn [negb]. cbv zeta.
  unfold skewSymmetric. cbn [negb]. do 3 eexists. split; [reflexivity|]. split; [reflexivity|]. split; [split; reflexivity|]. split; [split; reflexivity|].
  split; [reflexivity|]. split; [reflexivity|]. intros i j I J. change (i < 9)%nat in I. change (j < 9)%nat in J.
  assert (TP : 0 <= ecef_F_tol W g i). { unfold ecef_F_tol. assert (0 <= W * W) by (apply Rmult_le_pos; lra). destruct (Nat.ltb i 3); [lra|]. destruct (Nat.ltb i 6); lra. }
  assert (ZZ : forall x, Rabs (x - x) <= ecef_F_tol W g i * u64) by (intros x; rewrite Rminus_eq_0, Rabs_R0; apply Rmult_le_pos; [exact TP|pose proof u64_bounds; lra]).
  assert (EI : (i = 0 \/ i = 1 \/ i = 2 \/ i = 6 \/ i = 7 \/ i = 8 \/ i = 3 \/ i = 4 \/ i = 5)%nat) by lia.
  do 9 (destruct j as [|j]; [destruct EI as [EI|[EI|[EI|[EI|[EI|[EI|[EI|[EI|EI]]]]]]]]; subst i; first [apply ZZ|apply tw; assumption|apply cen; assumption]|]). lia.
Qed.
End Ecef.

(** In exact arithmetic the rounded functions are the exact ones. *)
Lemma mmul_exact A B : mmul_f exact_ops A B = mmul A B.
Proof. destruct A, B. reflexivity. Qed.
Lemma mmap_exact A : mmap (fun x => x) A = A.
Proof. now destruct A. Qed.
Lemma ecef_exact a GE RS Om F0 G0 : ecefErrorDynamics_f exact_ops a GE RS Om F0 G0 = ecefErrorDynamics a GE RS Om F0 G0.
Proof.
  unfold ecefErrorDynamics_f, ecefErrorDynamics. cbv zeta. cbn [frnd exact_ops]. rewrite !mmap_exact, mmul_exact. reflexivity.
Qed.
Lemma minvc_exact A : minvc_f exact_ops A = minvc A.
Proof.
  destruct A as [a b c d e f x y z]. unfold minvc_f, minvc. cbn [frnd fdot exact_ops m11 m12 m13 m21 m22 m23 m31 m32 m33].
  unfold mdet, dot, col1. cbn [vx vy vz m11 m12 m13 m21 m22 m23 m31 m32 m33].
  match goal with |- bind (Rdivc 1 ?x) _ = bind (Rdivc 1 ?y) _ => replace x with y by ring end.
  unfold Rdivc. destruct Req_EM_T; [reflexivity|]. cbn [bind]. f_equal. unfold mscale, madj. cbn [m11 m12 m13 m21 m22 m23 m31 m32 m33]. f_equal; ring.
Qed.
Lemma ned_exact a GN RS lla ld ldd F0 G0 : cos (vx lla) <> 0 ->
  nedErrorDynamics_f exact_ops (fun x => x * x) (fun x => Rpower x (3 / 2)) sqrt tan a GN RS lla ld ldd F0 G0 = nedErrorDynamics a GN RS lla ld ldd F0 G0.
Proof.
  intros C. unfold nedErrorDynamics_f, nedErrorDynamics. destruct (negb (is9x9 F0)); [reflexivity|]. destruct (negb (is9x9 G0)); [reflexivity|]. cbv zeta.
  cbn [frnd fdot fsin fcos exact_ops].
  change (gp_wE_f exact_ops) with gp_wE. change (gp_f_f exact_ops) with gp_f. change gp_a_f with gp_a.
  unfold tanc. rewrite (Rdivc_ok (sin (vx lla))) by exact C. cbn [bind]. fold (tan (vx lla)).
  rewrite esq_e2. fold (W2 (vx lla)). pose proof (W2_bounds (vx lla)). pose proof (sW_pos (vx lla)).
  rewrite sqrtc_ok by lra. cbn [bind]. rewrite (Rdivc_ok gp_a) by lra. cbn [bind]. fold (Nr (vx lla)).
  rewrite Rpower_3_2 by lra. rewrite (Rdivc_ok (gp_a * _)) by (apply Rmult_integral_contrapositive; lra). cbn [bind].
  fold (Mr (vx lla)). pose proof (Mr_bounds (vx lla)). pose proof (Nr_bounds (vx lla)) as B. unfold gp_a in B.
  rewrite sqrtc_ok by nra. cbn [bind]. repeat (match goal with |- bind (Rdivc ?x ?y) _ = _ => destruct (Rdivc x y); cbn [bind]; try reflexivity end).
  rewrite minvc_exact. match goal with |- bind ?x _ = _ => destruct x; cbn [bind]; try reflexivity end.
Qed.

(** Correctly rounded functions meet the hypotheses. *)
Lemma powh_64_ok : powh_ok (fun x => frnd binary64_ops (sqrt x)).
Proof. intros x X. pose proof (proj1 binary64_ok (sqrt x)) as A. rewrite (Rabs_right (sqrt x)) in A by (apply Rle_ge, sqrt_pos). pose proof (sqrt_pos x) as S. pose proof u64_bounds. assert (0 <= u64 * sqrt x) by (apply Rmult_le_pos; lra). lra. Qed.
Lemma tan_64_ok : tan_ok (fun x => frnd binary64_ops (tan x)).
Proof. intros x X. pose proof (proj1 binary64_ok (tan x)) as A. pose proof (Rabs_pos (tan x)) as S. pose proof u64_bounds. assert (0 <= u64 * Rabs (tan x)) by (apply Rmult_le_pos; lra). lra. Qed.
