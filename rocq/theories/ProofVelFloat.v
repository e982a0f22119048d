(** The velocity update of fine alignment in rounded arithmetic. *)
From Coq Require Import Reals Lra ZArith.
From Flocq Require Import Core.
From mathcomp Require Import all_ssreflect all_algebra.
From Verif Require Import Base BaseMx ModelEigen ModelKalman ModelLuMx ModelFine ModelFilterFloat ModelUpdateFloat ModelFineFloat SpecFloatOps SpecKalman SpecBls SpecFine SpecLdltFloat SpecFilterFloat SpecUpdateFloat SpecLuFloat SpecFineFloat
  ProofMx ProofKalman ProofKalman2 ProofStrapdownFloat ProofLdlt7 ProofLuMx ProofFine ProofFilterFloat ProofUpdateFloat ProofDirect ProofDirect2 ProofFineFloat.
Set Implicit Arguments.
Unset Strict Implicit.
Unset Printing Implicit Defensive.
Import GRing.Theory.
Local Open Scope ring_scope.

Section Scal4.
Local Open Scope R_scope.
Lemma shift_le x s T q e : 0 < T -> T * T * (T * T) * s <= q * q * (e * e) -> x * x <= s -> 0 <= q -> 0 <= e -> Rabs x <= q / (T * T) * e.
Proof.
  move=> T0 A B q0 e0. have TT : 0 < T * T by nra. have X : Rabs x * Rabs x = x * x by rewrite -Rabs_mult Rabs_right //; apply: Rle_ge; exact: Rle_0_sqr.
  apply: (Rmult_le_reg_r (T * T)) => //. rewrite (_ : q / (T * T) * e * (T * T) = q * e); last by field; lra. apply: Rsqr_incr_0_var; last exact: Rmult_le_pos. rewrite /Rsqr.
  have : T * T * (T * T) * (x * x) <= T * T * (T * T) * s by apply: Rmult_le_compat_l => //; nra. rewrite -X. nra.
Qed.
Lemma shift_sq q T s e : 0 < T -> T * T * s <= e * e -> q * q * s <= q * q * (e / T * (e / T)).
Proof.
  move=> T0 H. apply: Rmult_le_compat_l; first exact: Rle_0_sqr. have TT : 0 < T * T by nra. apply: (Rmult_le_reg_l (T * T)) => //. rewrite (_ : T * T * (e / T * (e / T)) = e * e) //. field. lra.
Qed.
Lemma vel_c u T T' d c : 0 <= u <= / 1000000 -> 0 < T -> 0 < T' -> 0 <= c -> d * d + T * T = c * c * (T * T) -> Rabs (T' * T' - T * T) <= 3 * u * (T * T) -> 300000 * u * (c * c * c) <= 1 ->
  let c' := 10005 / 10000 * c in 1 <= c /\ 1 <= c' /\ d * d + T' * T' <= c' * c' * (T' * T') /\ 30000 * (9 * u) * (c' * c' * c') <= 1.
Proof.
  move=> U T0 T0' c0 E H V c'. have TT : 0 < T * T by nra. have TT' : 0 < T' * T' by nra. have dd := Rle_0_sqr d. rewrite /Rsqr in dd.
  have cc : 1 <= c * c by apply: (Rmult_le_reg_r (T * T)) => //; lra. have c1 : 1 <= c by nra. have A := Rabs_le_inv _ _ H.
  have B : 3 * u * (T * T) <= / 100000 * (T * T) by apply: Rmult_le_compat_r; lra.
  split=> //. split; first by rewrite /c'; lra. split.
  - rewrite (_ : c' * c' * (T' * T') = 10005 / 10000 * (10005 / 10000) * (c * c * (T' * T'))); last by rewrite /c'; field.
    have C : (c * c - 1) * (T * T) <= (c * c - 1) * (1001 / 1000 * (T' * T')) by apply: Rmult_le_compat_l; lra. have : 0 <= c * c * (T' * T') by apply: Rmult_le_pos; lra. lra.
  - rewrite (_ : c' * c' * c' = 10005 / 10000 * (10005 / 10000) * (10005 / 10000) * (c * c * c)); last by rewrite /c'; field. have : 0 <= u * (c * c * c) by apply: Rmult_le_pos; nra. lra.
Qed.
Lemma vel_eT T T' e : 0 < T -> 999 / 1000 * T <= T' -> 0 <= e -> e / T' <= 1002 / 1000 * (e / T).
Proof.
  move=> T0 H e0. have T0' : 0 < T' by lra. apply: (Rmult_le_reg_r T') => //. rewrite (_ : e / T' * T' = e); last by field; lra. have G : 0 <= e / T by apply: Rmult_le_pos => //; left; exact: Rinv_0_lt_compat.
  have : e / T * (999 / 1000 * T) <= e / T * T' by apply: Rmult_le_compat_l. rewrite (_ : e / T * (999 / 1000 * T) = 999 / 1000 * e); last by field; lra. lra.
Qed.
Lemma vel_x u t T T' e c X A g a s : 0 <= u -> 0 < T -> 999 / 1000 * T <= T' -> 0 <= e -> 1 <= c -> 0 <= A -> 0 <= g <= 3 * u * (e / T') -> 0 <= s <= A -> let c' := 10005 / 10000 * c in
  a <= 12 * (9 * u) * (X + t) + 980 * (9 * u) * (c' * c' * c') * (e / T' * A) -> a + g * s <= 108 * u * (X + t) + 9000 * u * (c * c * c) * (e / T * A).
Proof.
  move=> u0 T0 HT e0 c1 A0 Hg Hs c' Ha. have E := vel_eT T0 HT e0. have T0' : 0 < T' by lra. have G : 0 <= e / T by apply: Rmult_le_pos => //; left; exact: Rinv_0_lt_compat.
  have G' : 0 <= e / T' by apply: Rmult_le_pos => //; left; exact: Rinv_0_lt_compat.
  rewrite (_ : c' * c' * c' = 10005 / 10000 * (10005 / 10000) * (10005 / 10000) * (c * c * c)) in Ha; last by rewrite /c'; field.
  have c3 : 1 <= c * c * c. { have : 1 <= c * c by nra. nra. }
  have EA : e / T' * A <= 1002 / 1000 * (e / T * A) by rewrite -Rmult_assoc; apply: Rmult_le_compat_r.
  have EA0 : 0 <= e / T' * A by apply: Rmult_le_pos. have FA0 : 0 <= e / T * A by apply: Rmult_le_pos.
  have g1 : g * s <= 3 * u * (e / T') * A by apply: Rmult_le_compat; lra. have uc : u <= u * (c * c * c) by rewrite -{1}(Rmult_1_r u); apply: Rmult_le_compat_l.
  have B : u * (e / T' * A) <= u * (c * c * c) * (1002 / 1000 * (e / T * A)) by apply: Rmult_le_compat.
  have C : u * (c * c * c) * (e / T' * A) <= u * (c * c * c) * (1002 / 1000 * (e / T * A)) by apply: Rmult_le_compat_l => //; lra.
  have F : 0 <= u * (c * c * c) * (e / T * A) by apply: Rmult_le_pos => //; lra.
  rewrite (_ : 980 * (9 * u) * (10005 / 10000 * (10005 / 10000) * (10005 / 10000) * (c * c * c)) * (e / T' * A) = 8820 * (10005 / 10000) * (10005 / 10000) * (10005 / 10000) * (u * (c * c * c) * (e / T' * A))) in Ha; last by field; lra.
  rewrite (_ : u * (c * c * c) * (1002 / 1000 * (e / T * A)) = 1002 / 1000 * (u * (c * c * c) * (e / T * A))) in B C; last by field; lra.
  rewrite (_ : 3 * u * (e / T') * A = 3 * (u * (e / T' * A))) in g1; last by field; lra.
  rewrite (_ : 9000 * u * (c * c * c) * (e / T * A) = 9000 * (u * (c * c * c) * (e / T * A))); last by field; lra. lra.
Qed.
Lemma vel_P u T T' di dj d c g a s : 0 <= u -> 0 < T -> 999 / 1000 * T <= T' -> 0 <= di -> 0 <= dj -> 0 <= d -> 1 <= c -> d <= c * T -> 0 <= g <= 3 * u * (di / T') -> 0 <= s <= 2 * (d * dj) -> let c' := 10005 / 10000 * c in
  a <= (246 * (9 * u) * (c' * c') + 1934 * (9 * u) * (c' * c' * c' * c') * (1934 * (9 * u) * (c' * c' * c' * c'))) * (di * dj) ->
  a + g * s <= (2300 * u * (c * c) + 17500 * u * (c * c * c * c) * (17500 * u * (c * c * c * c))) * (di * dj).
Proof.
  move=> u0 T0 HT i0 j0 d0 c1 dT Hg Hs c' Ha. have E := vel_eT T0 HT i0. have T0' : 0 < T' by lra.
  have g1 : g * s <= 3 * u * (1002 / 1000 * (di / T)) * (2 * (c * T * dj)).
  { apply: Rmult_le_compat; try lra. - apply: Rle_trans (proj2 Hg) _. apply: Rmult_le_compat_l; lra. - apply: Rle_trans (proj2 Hs) _. have := Rmult_le_compat_r dj _ _ j0 dT. lra. }
  rewrite (_ : 3 * u * (1002 / 1000 * (di / T)) * (2 * (c * T * dj)) = 6012 / 1000 * u * c * (di * dj)) in g1; last by field; lra.
  have ij : 0 <= di * dj by apply: Rmult_le_pos. apply: Rle_trans (_ : _ <= (246 * (9 * u) * (c' * c') + 1934 * (9 * u) * (c' * c' * c' * c') * (1934 * (9 * u) * (c' * c' * c' * c')) + 6012 / 1000 * u * c) * (di * dj)) _; first lra.
  apply: Rmult_le_compat_r => //.
  have c2 : u * c <= u * (c * c) by apply: Rmult_le_compat_l => //; nra. have c20 : 0 <= u * (c * c) by apply: Rmult_le_pos => //; nra. have c40 : 0 <= u * (c * c * c * c). { rewrite (_ : c * c * c * c = c * c * (c * c)); last ring. apply: Rmult_le_pos => //. nra. }
  have A1 : 246 * (9 * u) * (c' * c') + 6012 / 1000 * u * c <= 2300 * u * (c * c). { rewrite (_ : 246 * (9 * u) * (c' * c') = 246 * 9 * (10005 / 10000) * (10005 / 10000) * (u * (c * c))); last by rewrite /c'; field. lra. }
  have A2 : 0 <= 1934 * (9 * u) * (c' * c' * c' * c') <= 17500 * u * (c * c * c * c).
  { rewrite (_ : 1934 * (9 * u) * (c' * c' * c' * c') = 1934 * 9 * (10005 / 10000) * (10005 / 10000) * (10005 / 10000) * (10005 / 10000) * (u * (c * c * c * c))); last by rewrite /c'; field. lra. }
  have := Rmult_le_compat _ _ _ _ (proj1 A2) (proj1 A2) (proj2 A2) (proj2 A2). lra.
Qed.
Lemma vel_opp p a b : - (p + - a - (p + - b)) = a + - b. Proof. ring. Qed.
End Scal4.

(** The gain under a slightly different noise. *)
Lemma gain_shift n m (P : 'M[R]_n) (H : 'M[R]_(m, n)) (T T' q e : R) i l : psd P -> Rlt 0 T -> Rlt 0 T' -> Rle 0 q -> Rle 0 e -> Rle (P i i) (Rmult e e) -> Rle (Rabs (Rminus (Rmult T' T') (Rmult T T))) (Rmult q (Rmult T T)) ->
  Rle (Rabs (Rminus (gain P H (Rmult T' T')%:M i l) (gain P H (Rmult T T)%:M i l))) (Rmult q (Rdiv e T')).
Proof.
  move=> HP T0 T0' q0 e0 He Hq. have TT : Rlt 0 (Rmult T T) by apply: Rmult_lt_0_compat. have TT' : Rlt 0 (Rmult T' T') by apply: Rmult_lt_0_compat.
  have KP w : Rlt 0 w -> keeps w (H *m P *m H^T + w%:M).
  { move=> w0. apply: keeps_noise => //; first lra. move=> y. right. rewrite /qf -scalemx1 -scalemxAr mulmx1 -scalemxAl mxE mxE. toR. congr Rmult. apply: eq_bigr => k _. by rewrite mxE. }
  have K0 := KP _ TT. have U := keeps_unit K0 TT. have U' := keeps_unit (KP _ TT') TT'.
  set w := Rmult T T in U K0 TT Hq *. set w' := Rmult T' T' in U' TT' Hq *. set S := H *m P *m H^T + w%:M in U K0.
  set G' := gain P H w'%:M. set G := gain P H w%:M. have E' : G' *m (H *m P *m H^T + w'%:M) = P *m H^T by exact: gainS. have E : G *m S = P *m H^T by exact: gainS.
  have ES : (G' - G) *m S = (w - w') *: G'.
  { rewrite mulmxBl E -E' /S !mulmxDr !mul_mx_scalar scalerBl. move: (G' *m _) (_ *: G') (_ *: G') => a b c. rewrite opprD addrACA subrr add0r. by []. }
  have SS : S^T = S by rewrite /S linearD /= tr_scalar_mx !trmx_mul trmxK (proj1 HP) mulmxA.
  have KS := K0 (row i (G' - G))^T. have EC : S *m (row i (G' - G))^T = (w - w') *: (row i G')^T.
  { rewrite -{1}SS -trmx_mul -row_mul ES. apply/matrixP => a b. by rewrite !mxE. }
  rewrite EC in KS. have [GR _] := gain_row l HP T0' (erefl : w' = Rmult T' T') e0 He U'.
  have S1 : sq ((w - w') *: (row i G')^T) = Rmult (Rmult (Rminus w w') (Rminus w w')) (\sum_k Rmult (G' i k) (G' i k)).
  { rewrite /sq scale_sum. apply: eq_bigr => k _. rewrite !mxE. toR. ring. }
  rewrite S1 in KS. have GE := Rle_trans _ _ _ GR He. have SQ := @shift_sq (Rminus w w') T' _ e T0' GE.
  have L : Rle (Rmult (Rminus (G' i l) (G i l)) (Rminus (G' i l) (G i l))) (sq (row i (G' - G))^T).
  { rewrite /sq (bigD1 l) //= !mxE. toR. have : Rle 0 (\sum_(k < m | k != l) Rmult ((row i (G' - G))^T k ord0) ((row i (G' - G))^T k ord0)).
    { elim/big_ind: _ => [|a b|k _]; [exact: Rle_refl|exact: Rplus_le_le_0_compat|exact: Rle_0_sqr]. }
    move: (\sum_(k < m | _) _) (G' i l) (G i l) => a g h A. rewrite -{1}[Rmult _ _]Rplus_0_r. apply: Rplus_le_compat_l. exact: A. }
  have eT : Rle 0 (Rdiv e T') by apply: Rmult_le_pos => //; left; exact: Rinv_0_lt_compat.
  have AA : Rmult (Rabs (Rminus w w')) (Rabs (Rminus w w')) = Rmult (Rminus w w') (Rminus w w') by rewrite -Rabs_mult Rabs_right //; apply: Rle_ge; exact: Rle_0_sqr.
  have SH : Rle (Rmult (Rmult (Rmult T T) (Rmult T T)) (sq (row i (G' - G))^T)) (Rmult (Rmult (Rabs (Rminus w w')) (Rabs (Rminus w w'))) (Rmult (Rdiv e T') (Rdiv e T'))).
  { rewrite AA. exact: Rle_trans KS SQ. }
  apply: Rle_trans (shift_le T0 SH L (Rabs_pos _) eT) _. apply: Rmult_le_compat_r => //. apply: (Rmult_le_reg_r w) => //. rewrite -/w /Rdiv Rmult_assoc Rinv_l; last exact: Rgt_not_eq. by rewrite Rmult_1_r Rabs_minus_sym.
Qed.

Definition ov (l : 'I_2) : 'I_8 := if l == 0 then SpecFine.vN else vE.
Lemma Hv_ov : Hv = \matrix_(l, j) (j == ov l)%:R.
Proof. apply/matrixP => l j. rewrite !mxE /ov. by case: (l == 0). Qed.

Theorem velocity_ok r dot msub vel0 vel1 dtVel sigVel (x x1 : 'cV[R]_8) (P P1 : 'M[R]_8) (D : 'I_8 -> R) T d c :
  rel_ok r -> dot_ok dot -> msub_ok msub -> psd P -> (forall i, ordinary (D i)) -> (forall i, Rle (P i i) (Rmult (D i) (D i))) -> Rle 0 dtVel -> Rle dtVel (bpow radix2 300) ->
  ordinary T -> Rmult (Rmult sigVel sigVel) dtVel = Rmult T T -> ordinary d -> Rle (D SpecFine.vN) d -> Rle (D vE) d -> Rle 0 c -> Rplus (Rmult d d) (Rmult T T) = Rmult (Rmult c c) (Rmult T T) -> Rle (Rmult (Rmult 300000 u64) (Rmult (Rmult c c) c)) 1 ->
  exists (xe xf : 'cV[R]_8) (Pe Pf : 'M[R]_8), fineAlignmentVelocityUpdate vel0 vel1 dtVel sigVel (DV x) (DM P) (DV x1) (DM P1) = Ret (true, (DV xe, DM Pe)) /\
  fineAlignmentVelocityUpdate_f r dot (lu_mx r msub) vel0 vel1 dtVel sigVel x P = Ret (xf, Pf) /\
  (forall i, Rle (Rabs (Rminus (xf i 0) (xe i 0))) (Rplus (Rmult (Rmult 108 u64) (Rplus (Rabs (x i 0)) tiny64))
     (Rmult (Rmult (Rmult 9000 u64) (Rmult (Rmult c c) c)) (Rmult (Rdiv (D i) T) (Rplus (Rplus (Rplus (Rplus (Rabs vel0) (Rabs vel1)) (Rabs (x SpecFine.vN 0))) (Rabs (x vE 0))) (Rmult 2 tiny64)))))) /\
  (forall i j, Rle (Rabs (Rminus (Pf i j) (Pe i j)))
     (Rmult (Rplus (Rmult (Rmult 2300 u64) (Rmult c c)) (Rmult (Rmult (Rmult 17500 u64) (Rmult (Rmult (Rmult c c) c) c)) (Rmult (Rmult 17500 u64) (Rmult (Rmult (Rmult c c) c) c)))) (Rmult (D i) (D j)))).
Proof.
  move=> Hr Hd Hs HP HD PD dt0 dt1 HT ER Hd2 DN DE c0 Ec Vc. have [U0 U1] := u64_bounds. have T0 : Rlt 0 T by apply: Rlt_le_trans (proj1 HT); exact: bpow_gt_0. have t0 := tiny_pos.
  have TT : Rlt 0 (Rmult T T) by apply: Rmult_lt_0_compat. have D0 i : Rlt 0 (D i) by apply: Rlt_le_trans (proj1 (HD i)); exact: bpow_gt_0. have d0 : Rlt 0 d by apply: Rlt_le_trans (proj1 Hd2); exact: bpow_gt_0.
  have PDD := psd_dev HP (fun i => Rlt_le _ _ (D0 i)) PD.
  have NE := noise_err (rel_rnd Hr) HT erefl (conj dt0 dt1) (Req_le _ _ ER). rewrite ER in NE. set w := r (Rmult (r _) _) in NE.
  have [Ew [L1 L2]] := root_near erefl T0 NE ltac:(lra). set T' := sqrt w in Ew L1 L2. rewrite Ew in NE. have T0' : Rlt 0 T' by lra.
  have U2 : Rle 0 u64 /\ Rle u64 (Rinv 1000000) by lra. have [c1 [c1' [dc' Vc']]] := vel_c U2 T0 T0' c0 Ec NE Vc. set c' := Rmult (Rdiv 10005 10000) c in c1' dc' Vc'.
  have HT' : inside bb T' by apply: (ord_inside HT); lra. rewrite -vN8 in Vc'.
  have Do l : Rle (D (ov l)) d by rewrite /ov; case: (l == 0).
  set z : 'cV[R]_2 := \matrix_(i, j) (if i == 0 then vel0 else vel1).
  have [xw [Pw [xf [Pf [EW [EF [BX BP]]]]]]] := @direct2_update r dot msub 8 8 Hr Hd Hs N8 isT isT P ov w D T' bb c' d bb_ge1 bb_tiny HP PD (fun i => ord_inside' (HD i)) HT' (ord_inside' Hd2) Do Ew c1' dc' Vc' PDD x x1 z P1.
  rewrite -Hv_ov in EW EF. rewrite vN8 in BX BP.
  have KP : keeps (Rmult T T) (Hv *m P *m Hv^T + (Rmult T T)%:M).
  { apply: keeps_noise => //; first lra. move=> y. right. rewrite /qf -scalemx1 -scalemxAr mulmx1 -scalemxAl mxE mxE. toR. congr Rmult. apply: eq_bigr => k _. by rewrite mxE. }
  have KP' : keeps (Rmult T' T') (Hv *m P *m Hv^T + w%:M).
  { rewrite Ew. have TT' : Rlt 0 (Rmult T' T') by apply: Rmult_lt_0_compat. apply: keeps_noise => //; first lra. move=> y. right. rewrite /qf -scalemx1 -scalemxAr mulmx1 -scalemxAl mxE mxE. toR. congr Rmult. apply: eq_bigr => k _. by rewrite mxE. }
  have UU := keeps_unit KP TT. have UU' := keeps_unit KP' (Rmult_lt_0_compat _ _ T0' T0').
  have EU := update_ok x x1 z P P1 Hv (Rmult T T)%:M. rewrite UU in EU. have EU' := update_ok x x1 z P P1 Hv w%:M. rewrite UU' EW in EU'.
  have Xw : xw = x + gain P Hv w%:M *m (z - Hv *m x) by apply: DV_inj; congruence. have Xp : Pw = joseph P Hv w%:M (gain P Hv w%:M) by apply: DM_inj; congruence.
  set xe := x + _ in EU. set Pe := joseph _ _ _ _ in EU. exists xe, xf, Pe, Pf. split; first by rewrite fvel_eq ER.
  split.
  { rewrite /fineAlignmentVelocityUpdate_f Hv_ok -EF. congr filterUpdate_f.
    - apply/matrixP => i j. rewrite !ord1 !mxE. by case: i => [[|[|i]] Hi].
    - apply/matrixP => i j. rewrite !mxE. by case: i => [[|[|i]] Hi] //; case: j => [[|[|j]] Hj]. }
  have GS i l : Rle (Rabs (Rminus (gain P Hv w%:M i l) (gain P Hv (Rmult T T)%:M i l))) (Rmult (Rmult 3 u64) (Rdiv (D i) T')).
  { rewrite Ew. apply: (@gain_shift 8 2 P Hv T T' (Rmult 3 u64) (D i) i l HP T0 T0' _ (Rlt_le _ _ (D0 i)) (PD i) NE). lra. }
  have g0 i : Rle 0 (Rmult (Rmult 3 u64) (Rdiv (D i) T')) by exact: Rle_trans (Rabs_pos _) (GS i 0).
  have dT : Rle d (Rmult c T). { apply: Rsqr_incr_0_var; last by apply: Rmult_le_pos; lra. rewrite /Rsqr. rewrite (_ : Rmult (Rmult c T) (Rmult c T) = Rmult (Rmult c c) (Rmult T T)); [lra|ring]. }
  split=> [i|i j].
  - have B := BX i. have Z0 : z ord0 ord0 = vel0 by rewrite mxE. have Z1 : z (lift ord0 ord0) ord0 = vel1 by rewrite mxE.
    have O0 : ov ord0 = SpecFine.vN by []. have O1 : ov (lift ord0 ord0) = vE by []. rewrite Z0 Z1 O0 O1 in B.
    have S : Rle (Rabs (Rminus (xw i 0) (xe i 0))) (Rmult (Rmult (Rmult 3 u64) (Rdiv (D i) T')) (Rplus (Rplus (Rabs vel0) (Rabs (x SpecFine.vN 0))) (Rplus (Rabs vel1) (Rabs (x vE 0))))).
    { have -> : Rminus (xw i 0) (xe i 0) = ((gain P Hv w%:M - gain P Hv (Rmult T T)%:M) *m (z - Hv *m x)) i 0.
      { rewrite Xw /xe mulmxBl !mxE [(x i 0 + _)%R]addrC [in LHS](addrC (x i 0)). toR. ring. }
      rewrite mxE. apply: Rle_trans (ProofFilterFloat.sum_abs _) _. rewrite sum_two Rmult_plus_distr_l.
      apply: Rplus_le_compat; toR; rewrite Rabs_mult; (apply: Rmult_le_compat; try exact: Rabs_pos).
      - rewrite mxE [(- _ : 'M_(_, _)) _ _]mxE. exact: GS.
      - rewrite mxE [(- _ : 'cV_2) _ _]mxE HvM Z0. exact: abs_minus.
      - rewrite mxE [(- _ : 'M_(_, _)) _ _]mxE. exact: GS.
      - rewrite mxE [(- _ : 'cV_2) _ _]mxE HvM Z1. exact: abs_minus. }
    rewrite (_ : Rminus (xf i 0) (xe i 0) = Rplus (Rminus (xf i 0) (xw i 0)) (Rminus (xw i 0) (xe i 0))); last by ring.
    apply: Rle_trans (Rabs_triang _ _) _. apply: Rle_trans (Rplus_le_compat_l _ _ _ S) _.
    have p0 := Rabs_pos vel0. have p1 := Rabs_pos vel1. have p2 := Rabs_pos (x SpecFine.vN 0). have p3 := Rabs_pos (x vE 0).
    apply: (@vel_x u64 tiny64 T T' (D i) c (Rabs (x i 0)) _ _ _ _ (Rlt_le _ _ U0) T0 L1 (Rlt_le _ _ (D0 i)) c1 _ (conj (g0 i) (Rle_refl _)) _ B); change (ord0 : 'I_1) with (0 : 'I_1); [|split]; lra.
  - have B := BP i j.
    have S : Rle (Rabs (Rminus (Pw i j) (Pe i j))) (Rmult (Rmult (Rmult 3 u64) (Rdiv (D i) T')) (Rplus (Rabs (P SpecFine.vN j)) (Rabs (P vE j)))).
    { rewrite -Rabs_Ropp. have -> : Ropp (Rminus (Pw i j) (Pe i j)) = ((gain P Hv w%:M - gain P Hv (Rmult T T)%:M) *m (Hv *m P)) i j.
      { rewrite Xp /Pe (joseph_gain UU) (joseph_gain UU') mulmxBl -!mulmxA. set a := P *m (_ *m (invmx (_ + w%:M) *m _)). set b := P *m (_ *m (invmx (_ + (Rmult T T)%:M) *m _)). rewrite [(P - a) i j]mxE [(P - b) i j]mxE [(a - b) i j]mxE ![(- _ : 'M_8) i j]mxE. exact: vel_opp. }
      rewrite mxE. apply: Rle_trans (ProofFilterFloat.sum_abs _) _. rewrite sum_two Rmult_plus_distr_l.
      apply: Rplus_le_compat; toR; rewrite Rabs_mult; (apply: Rmult_le_compat; try exact: Rabs_pos).
      - rewrite mxE [(- _ : 'M_(_, _)) _ _]mxE. exact: GS.
      - rewrite HvM. exact: Rle_refl.
      - rewrite mxE [(- _ : 'M_(_, _)) _ _]mxE. exact: GS.
      - rewrite HvM. exact: Rle_refl. }
    rewrite (_ : Rminus (Pf i j) (Pe i j) = Rplus (Rminus (Pf i j) (Pw i j)) (Rminus (Pw i j) (Pe i j))); last by ring.
    apply: Rle_trans (Rabs_triang _ _) _. apply: Rle_trans (Rplus_le_compat_l _ _ _ S) _.
    have q0 := Rabs_pos (P SpecFine.vN j). have q1 := Rabs_pos (P vE j).
    have q2 : Rle (Rabs (P SpecFine.vN j)) (Rmult d (D j)) by apply: Rle_trans (PDD _ _) _; apply: Rmult_le_compat_r => //; left; exact: D0.
    have q3 : Rle (Rabs (P vE j)) (Rmult d (D j)) by apply: Rle_trans (PDD _ _) _; apply: Rmult_le_compat_r => //; left; exact: D0.
    apply: (@vel_P u64 T T' (D i) (D j) d c _ _ _ (Rlt_le _ _ U0) T0 L1 (Rlt_le _ _ (D0 i)) (Rlt_le _ _ (D0 j)) (Rlt_le _ _ d0) c1 dT (conj (g0 i) (Rle_refl _)) _ B). lra.
Qed.
