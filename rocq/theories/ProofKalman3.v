(** Proofs about the filters, part 3: information form, sequential processing,
    coordinate changes, noise-free measurements and the unscented filter. *)
From Coq Require Import Reals Lra.
From mathcomp Require Import all_ssreflect all_algebra.
From Verif Require Import Base BaseMx ModelEigen ModelKalman SpecKalman SpecFilter ProofMx ProofKalman ProofKalman2.
Set Implicit Arguments.
Unset Strict Implicit.
Unset Printing Implicit Defensive.
Import GRing.Theory.
Local Open Scope ring_scope.
Local Open Scope outcome_scope.

Lemma RetE n (b : bool) (x y : 'cV[R]_n) (A B : 'M[R]_n) :
  x = y -> A = B -> Ret (b, (DV x, DM A)) = Ret (b, (DV y, DM B)).
Proof. by move=> -> ->. Qed.

(** ** C47, C84: information form *)
Section Info.
Variables (n m : nat) (x : 'cV[R]_n) (z : 'cV[R]_m) (P : 'M[R]_n) (H : 'M[R]_(m, n)) (Rk : 'M[R]_m).
Let S := H *m P *m H^T + Rk.
Hypotheses (U : S \in unitmx) (UP : P \in unitmx) (UR : Rk \in unitmx).
Let K := gain P H Rk.
Let P' := joseph P H Rk K.
Let x' := x + K *m (z - H *m x).
Let Y := invmx P + H^T *m invmx Rk *m H.

Lemma info_gain : Y *m K = H^T *m invmx Rk.
Proof.
  apply: (can_inj (mulmxK U)). rewrite -mulmxA gainS // /Y mulmxDl !mulmxA mulVmx // mul1mx.
  rewrite /S mulmxDr mulmxKV // !mulmxA. exact: addrC.
Qed.
Lemma info_cov : Y *m P' = 1%:M.
Proof.
  rewrite /P' joseph_gain' // mulmxA mulmxBr mulmx1 mulmxA info_gain.
  by rewrite /Y addrK mulVmx.
Qed.
Lemma info_cov_inv : P' \in unitmx /\ invmx P' = Y.
Proof.
  have [UY UP'] := mulmx1_unit info_cov. split=> //.
  by rewrite -[LHS]mul1mx -info_cov mulmxK.
Qed.
Lemma info_state : Y *m x' = invmx P *m x + H^T *m invmx Rk *m z.
Proof.
  rewrite /x' mulmxDr mulmxA info_gain mulmxBr !mulmxA {1}/Y mulmxDl. mx_abel.
Qed.
Lemma info_cost (SP : symmetric P) (SR : symmetric Rk) xi :
  qf (invmx P) (xi - x) + qf (invmx Rk) (z - H *m xi) =
  qf (invmx P) (x' - x) + qf (invmx Rk) (z - H *m x') + qf (invmx P') (xi - x').
Proof.
  have [UP' ->] := info_cov_inv. have Es := info_state. move: x' Es => y Es.
  set d := xi - y.
  have E1 : xi - x = d + (y - x) by rewrite /d; mx_abel.
  have E2 : z - H *m xi = - (H *m d) + (z - H *m y) by rewrite /d mulmxBr; mx_abel.
  rewrite E1 E2 (qf_add d (y - x) (inv_sym SP)) (qf_add (- (H *m d)) (z - H *m y) (inv_sym SR)).
  have trN : (- (H *m d))^T = - (H *m d)^T by exact: linearN.
  have Q1 : qf (invmx Rk) (- (H *m d)) = qf (H^T *m invmx Rk *m H) d.
  { by rewrite /qf trN !mulNmx mulmxN opprK trmx_mul !mulmxA. }
  have C : (d^T *m invmx P *m (y - x)) 0 0 + ((- (H *m d))^T *m invmx Rk *m (z - H *m y)) 0 0 = 0.
  { have -> : (d^T *m invmx P *m (y - x)) 0 0 + ((- (H *m d))^T *m invmx Rk *m (z - H *m y)) 0 0 =
      (d^T *m invmx P *m (y - x) + (- (H *m d))^T *m invmx Rk *m (z - H *m y)) 0 0 by rewrite [RHS]mxE.
    have -> : d^T *m invmx P *m (y - x) + (- (H *m d))^T *m invmx Rk *m (z - H *m y) =
      d^T *m (Y *m y - (invmx P *m x + H^T *m invmx Rk *m z)).
    { rewrite trN trmx_mul !mulNmx !mulmxBr !mulmxDr /Y mulmxDl mulmxDr !mulmxA. mx_abel. }
    by rewrite Es subrr mulmx0 mxE. }
  rewrite Q1 /Y qfD. rewrite !mulr2n.
  set a := (d^T *m _ *m _) 0 0 in C *. set b := (_ *m invmx Rk *m (z - H *m y)) 0 0 in C *.
  move: a b C => a b C. set q1 := qf _ d. set q2 := qf _ (y - x). set q3 := qf _ d. set q4 := qf _ _.
  move: q1 q2 q3 q4 => q1 q2 q3 q4. toR. lra.
Qed.
End Info.

(** The information form of a call. *)
Lemma update_info n m (x x1 x' : 'cV[R]_n) (z : 'cV[R]_m) (P P1 P' : 'M[R]_n) (H : 'M[R]_(m, n)) (Rk : 'M[R]_m) :
  P \in unitmx -> Rk \in unitmx ->
  filterUpdate (DV x) (DM P) (DV z) (DM H) (DM Rk) (DV x1) (DM P1) = Ret (true, (DV x', DM P')) ->
  [/\ P' \in unitmx, invmx P' = invmx P + H^T *m invmx Rk *m H
    & invmx P' *m x' = invmx P *m x + H^T *m invmx Rk *m z].
Proof.
  move=> UP UR /update_inv [U -> ->]. have [UP' E] := info_cov_inv U UP UR. split=> //. by rewrite E info_state.
Qed.

(** The returned state is the unique minimiser of the joint cost. *)
Lemma update_map n m (x x1 x' xi : 'cV[R]_n) (z : 'cV[R]_m) (P P1 P' : 'M[R]_n) (H : 'M[R]_(m, n)) (Rk : 'M[R]_m) :
  pd P -> pd Rk ->
  filterUpdate (DV x) (DM P) (DV z) (DM H) (DM Rk) (DV x1) (DM P1) = Ret (true, (DV x', DM P')) ->
  let J v := Rplus (qf (invmx P) (v - x)) (qf (invmx Rk) (z - H *m v)) in
  J xi = Rplus (J x') (qf (invmx P') (xi - x')) /\ Rle (J x') (J xi) /\ (J xi = J x' -> xi = x').
Proof.
  move=> HP HR E J. have UP := pd_unit HP. have UR := pd_unit HR.
  have HP' := update_psd E (pd_psd HP) (pd_psd HR).
  have [UP' _ _] := update_info UP UR E. have [_ Di] := pd_inv (psd_unit_pd HP' UP').
  have [Si Ti] := pd_psd (pd_inv (psd_unit_pd HP' UP')).
  have C : J xi = Rplus (J x') (qf (invmx P') (xi - x')).
  { case/update_inv: E => U E1 E2. rewrite /J E1 E2.
    exact: (info_cost x z U UP UR (proj1 HP) (proj1 HR) xi). }
  split=> //. split.
  - rewrite C. have := Ti (xi - x'). rlra.
  - move=> EJ. apply/eqP. rewrite -subr_eq0. apply/negPn/negP => N. have := Di _ N. rewrite C in EJ. rlra.
Qed.

(** ** C82: change of coordinates of state (T) and measurement (U) *)
Section Coord.
Variables (n m n' m' : nat) (T : 'M[R]_(n', n)) (T' : 'M[R]_(n, n')) (U : 'M[R]_(m', m)) (U' : 'M[R]_(m, m')).
Hypotheses (TT : T *m T' = 1%:M) (TT' : T' *m T = 1%:M) (UU : U *m U' = 1%:M) (UU' : U' *m U = 1%:M).

Lemma predict_coord (x x1 : 'cV[R]_n) (P Phi Q P1 : 'M[R]_n) (y1 : 'cV[R]_n') (V1 : 'M[R]_n') x' P' :
  filterPredict (DV x) (DM P) (DM Phi) (DM Q) (DV x1) (DM P1) = Ret (true, (DV (x' : 'cV[R]_n), DM (P' : 'M[R]_n))) ->
  filterPredict (DV (T *m x)) (DM (T *m P *m T^T)) (DM (T *m Phi *m T')) (DM (T *m Q *m T^T)) (DV y1) (DM V1) =
  Ret (true, (DV (T *m x'), DM (T *m P' *m T^T))).
Proof.
  rewrite !predict_ok => /Ret_inj [_ <- <-].
  apply: RetE.
  - by rewrite -!mulmxA (mulmxA T' T) TT' mul1mx.
  - rewrite [(T *m Phi *m T')^T]trmx_mul [(T *m Phi)^T]trmx_mul mulmxDr mulmxDl. congr (_ + _).
    rewrite !mulmxA -(mulmxA _ T' T) TT' mulmx1.
    by rewrite -(mulmxA _ T^T T'^T) -trmx_mul TT' trmx1 mulmx1.
Qed.

Lemma coord_unit (S : 'M[R]_m) : (U *m S *m U^T \in unitmx) = (S \in unitmx).
Proof.
  have A : U'^T *m U^T = 1%:M by rewrite -trmx_mul UU trmx1.
  have B : U^T *m U'^T = 1%:M by rewrite -trmx_mul UU' trmx1.
  apply/idP/idP => Us.
  - have E : (U^T *m invmx (U *m S *m U^T) *m U) *m S = 1%:M.
    { have F := mulVmx Us. have G : invmx (U *m S *m U^T) *m U *m S = U'^T.
      { by rewrite -[RHS]mul1mx -F !mulmxA -(mulmxA _ U^T) B mulmx1. }
      by rewrite -!(mulmxA U^T) G B. }
    by case: (mulmx1_unit E).
  - have E : (U *m S *m U^T) *m (U'^T *m invmx S *m U') = 1%:M.
    { by rewrite !mulmxA -(mulmxA _ U^T) B mulmx1 mulmxK. }
    by case: (mulmx1_unit E).
Qed.

Lemma update_coord (x : 'cV[R]_n) (z : 'cV[R]_m) (P : 'M[R]_n) (H : 'M[R]_(m, n)) (Rk : 'M[R]_m) (y1 : 'cV[R]_n') (V1 : 'M[R]_n') :
  filterUpdate (DV (T *m x)) (DM (T *m P *m T^T)) (DV (U *m z)) (DM (U *m H *m T')) (DM (U *m Rk *m U^T)) (DV y1) (DM V1) =
  if H *m P *m H^T + Rk \in unitmx then
    Ret (true, (DV (T *m (x + gain P H Rk *m (z - H *m x))), DM (T *m joseph P H Rk (gain P H Rk) *m T^T)))
  else NonFinite.
Proof.
  rewrite update_ok.
  have B : T^T *m T'^T = 1%:M by rewrite -trmx_mul TT' trmx1.
  have EH : (U *m H *m T') *m (T *m P *m T^T) = U *m H *m P *m T^T by rewrite !mulmxA -(mulmxA _ T') TT' mulmx1.
  have EHT : (U *m H *m T')^T = T'^T *m H^T *m U^T by rewrite !trmx_mul mulmxA.
  have ES : (U *m H *m T') *m (T *m P *m T^T) *m (U *m H *m T')^T + U *m Rk *m U^T = U *m (H *m P *m H^T + Rk) *m U^T.
  { rewrite EH EHT !mulmxA -(mulmxA _ T^T) B mulmx1 mulmxDr mulmxDl !mulmxA. by []. }
  rewrite ES coord_unit. case: ifP => // Us. 
  set S := H *m P *m H^T + Rk in ES Us *.
  set K := gain P H Rk. set K' := gain _ _ _.
  have EK : K' = T *m K *m U'.
  { have US' : U *m S *m U^T \in unitmx by rewrite coord_unit.
    apply: (can_inj (mulmxK US')).
    transitivity (T *m P *m H^T *m U^T).
    - rewrite /K' /gain ES mulmxKV // EHT !mulmxA -(mulmxA _ T^T) B mulmx1. by [].
    - rewrite !mulmxA -(mulmxA _ U') UU' mulmx1 -/S mulmxKV //. }
  clearbody K' K.
  apply: RetE.
  - rewrite EK [T *m (x + _)]mulmxDr. congr (_ + _).
    have -> : U *m z - U *m H *m T' *m (T *m x) = U *m (z - H *m x).
    { by rewrite mulmxBr !mulmxA -(mulmxA _ T' T) TT' mulmx1. }
    by rewrite !mulmxA -(mulmxA _ U' U) UU' mulmx1.
  - have EI : 1%:M - K' *m (U *m H *m T') = T *m (1%:M - K *m H) *m T'.
    { rewrite EK [T *m (1%:M - _)]mulmxBr mulmx1 mulmxBl TT !mulmxA -(mulmxA _ U' U) UU' mulmx1. by []. }
    rewrite /joseph EI EK [T *m (_ + K *m Rk *m K^T)]mulmxDr [(T *m _ + _) *m T^T]mulmxDl.
    congr (_ + _).
    + rewrite [(T *m (1%:M - K *m H) *m T')^T]trmx_mul [(T *m (1%:M - K *m H))^T]trmx_mul !mulmxA.
      by rewrite -(mulmxA _ T' T) TT' mulmx1 -(mulmxA _ T^T T'^T) B mulmx1.
    + rewrite [(T *m K *m U')^T]trmx_mul [(T *m K)^T]trmx_mul !mulmxA.
      rewrite -(mulmxA _ U' U) UU' mulmx1 -(mulmxA _ U^T U'^T) -trmx_mul UU' trmx1 mulmx1. by [].
Qed.
End Coord.

(** ** C48: sequential and stacked processing *)
Section Stack.
Variables (n m1 m2 : nat) (x : 'cV[R]_n) (P : 'M[R]_n) (z1 : 'cV[R]_m1) (z2 : 'cV[R]_m2)
  (H1 : 'M[R]_(m1, n)) (H2 : 'M[R]_(m2, n)) (R1 : 'M[R]_m1) (R2 : 'M[R]_m2).
Let S1 := H1 *m P *m H1^T + R1.
Let H := col_mx H1 H2.
Let Rk := block_mx R1 0 0 R2.
Let S := H *m P *m H^T + Rk.

Lemma stack_S : S = block_mx S1 (H1 *m P *m H2^T) (H2 *m P *m H1^T) (H2 *m P *m H2^T + R2).
Proof. by rewrite /S /H /Rk tr_col_mx mul_col_mx mul_col_row add_block_mx !addr0. Qed.

Hypothesis U1 : S1 \in unitmx.
Let K1 := gain P H1 R1.
Let P1 := joseph P H1 R1 K1.
Let S2 := H2 *m P1 *m H2^T + R2.
Let K2 := gain P1 H2 R2.

Lemma stack_P1 : P1 = P - K1 *m H1 *m P.
Proof. exact: joseph_gain. Qed.
Lemma stack_factor : S = block_mx 1%:M 0 (H2 *m K1) 1%:M *m block_mx S1 (H1 *m P *m H2^T) 0 S2.
Proof.
  rewrite stack_S mulmx_block !mul1mx !mul0mx ?mulmx0 !addr0.
  have G1 : K1 *m S1 = P *m H1^T by exact: gainS.
  rewrite -[H2 *m K1 *m S1]mulmxA G1.
  congr (block_mx _ _ _ _); first by rewrite mulmxA.
  rewrite /S2 stack_P1. move: K1 => G. rewrite mulmxBr mulmxBl !mulmxA. mx_abel.
Qed.
Lemma stack_unit : (S \in unitmx) = (S2 \in unitmx).
Proof.
  rewrite stack_factor unitmx_mul !unitmxE det_lblock det_ublock !det1 mulr1 unitr1 /=.
  rewrite unitrM. move: U1. by rewrite unitmxE => ->.
Qed.
Hypothesis U2 : S2 \in unitmx.
Lemma stack_gain : gain P H Rk = row_mx ((1%:M - K2 *m H2) *m K1) K2.
Proof.
  have US : S \in unitmx by rewrite stack_unit.
  apply: (can_inj (mulmxK US)). rewrite gainS // stack_S mul_row_block /H tr_col_mx mul_mx_row.
  have G1 : K1 *m S1 = P *m H1^T by exact: gainS.
  have G2 : K2 *m S2 = P1 *m H2^T by exact: gainS.
  congr (row_mx _ _).
  - rewrite -(mulmxA _ K1) G1. move: K2 => G. rewrite mulmxBl mul1mx !mulmxA. mx_abel.
  - have -> : H2 *m P *m H2^T + R2 = S2 + H2 *m K1 *m H1 *m P *m H2^T.
    { rewrite /S2 stack_P1. move: K1 => G. rewrite mulmxBr mulmxBl !mulmxA. mx_abel. }
    rewrite [K2 *m (S2 + _)]mulmxDr G2 stack_P1. move: K1 K2 => G1' G2'.
    rewrite [(1%:M - _) *m _]mulmxBl mul1mx !mulmxBl !mulmxA. mx_abel.
Qed.
Lemma stack_x : x + gain P H Rk *m (col_mx z1 z2 - H *m x) =
  let x1 := x + K1 *m (z1 - H1 *m x) in x1 + K2 *m (z2 - H2 *m x1).
Proof.
  rewrite stack_gain /H mul_col_mx opp_col_mx add_col_mx mul_row_col. cbv zeta. move: K1 K2 => G1 G2.
  rewrite !mulmxBl !mul1mx !mulmxBr !mulmxDr ?mulmxBr ?mulmxN !mulmxA. mx_abel.
Qed.
Lemma stack_P : joseph P H Rk (gain P H Rk) = joseph P1 H2 R2 K2.
Proof.
  have US : S \in unitmx by rewrite stack_unit.
  have E1 : P1 = (1%:M - K1 *m H1) *m P by exact: joseph_gain'.
  rewrite joseph_gain' // (joseph_gain' U2) -/K2 {}E1 stack_gain /H mul_row_col.
  move: K1 K2 => G1 G2. rewrite [in RHS]mulmxA. congr (_ *m P).
  rewrite !mulmxBl !mulmxBr !mul1mx !mulmx1 !mulmxA. mx_abel.
Qed.
End Stack.

(** Sequential processing as a computation. *)
Definition update_then n m1 m2 (x x1 x2 : 'cV[R]_n) (P P1 P2 : 'M[R]_n) (z1 : 'cV[R]_m1) (z2 : 'cV[R]_m2)
  (H1 : 'M[R]_(m1, n)) (H2 : 'M[R]_(m2, n)) (R1 : 'M[R]_m1) (R2 : 'M[R]_m2) : outcome (bool * (dvec * dmat)) :=
  r <- filterUpdate (DV x) (DM P) (DV z1) (DM H1) (DM R1) (DV x1) (DM P1) ;;
  filterUpdate r.2.1 r.2.2 (DV z2) (DM H2) (DM R2) (DV x2) (DM P2).

Lemma sequential_stacked n m1 m2 (x x1 x2 : 'cV[R]_n) (P P1 P2 : 'M[R]_n) (z1 : 'cV[R]_m1) (z2 : 'cV[R]_m2)
  (H1 : 'M[R]_(m1, n)) (H2 : 'M[R]_(m2, n)) (R1 : 'M[R]_m1) (R2 : 'M[R]_m2) :
  psd P -> psd R1 -> psd R2 ->
  update_then x x1 x2 P P1 P2 z1 z2 H1 H2 R1 R2 =
  filterUpdate (DV x) (DM P) (DV (col_mx z1 z2)) (DM (col_mx H1 H2)) (DM (block_mx R1 0 0 R2)) (DV x2) (DM P2).
Proof.
  move=> HP HR1 HR2. rewrite /update_then !update_ok.
  case: ifP => U1 /=.
  - rewrite update_ok (stack_unit H2 R2 U1). case: ifP => // U2. apply: RetE.
    + by rewrite (stack_x x z1 z2 U1 U2).
    + by rewrite (stack_P U1 U2).
  - case: ifP => // US. exfalso. move: U1.
    have D : pd (col_mx H1 H2 *m P *m (col_mx H1 H2)^T + block_mx R1 0 0 R2).
    { apply: psd_unit_pd => //. apply: psdD; first exact: psd_congr.
      have -> : block_mx R1 0 0 R2 = col_mx 1%:M 0 *m R1 *m (col_mx 1%:M 0)^T + col_mx 0 1%:M *m R2 *m (col_mx 0 1%:M)^T.
      { rewrite !tr_col_mx !mul_col_mx !mul_mx_row !trmx1 !trmx0 !mul0mx !mul1mx !mulmx0 !mulmx1 add_col_mx !add_row_mx.
        by rewrite !addr0 !add0r block_mxEv. }
      apply: psdD; exact: psd_congr. }
    rewrite pd_unit //. split.
    { rewrite /symmetric. apply: S_sym; [by case: HP|by case: HR1]. }
    move=> v Nv. have N : col_mx v (0 : 'cV[R]_m2) != 0.
    { apply: contra Nv => /eqP E. have := f_equal usubmx E. rewrite col_mxKu => ->.
      apply/eqP. by apply/matrixP => i j; rewrite !mxE. }
    have := proj2 D _ N. rewrite stack_S /qf tr_col_mx mul_row_block mul_row_col trmx0 !mul0mx mulmx0 !addr0. by [].
Qed.

Lemma sequential_either n m1 m2 (x x1 x2 x1' : 'cV[R]_n) (P P1 P2 P1' : 'M[R]_n) (z1 : 'cV[R]_m1) (z2 : 'cV[R]_m2)
  (H1 : 'M[R]_(m1, n)) (H2 : 'M[R]_(m2, n)) (R1 : 'M[R]_m1) (R2 : 'M[R]_m2) :
  psd P -> psd R1 -> psd R2 ->
  update_then x x1 x2 P P1 P2 z1 z2 H1 H2 R1 R2 = update_then x x1' x2 P P1' P2 z2 z1 H2 H1 R2 R1.
Proof.
  move=> HP HR1 HR2. rewrite !sequential_stacked //.
  set U : 'M[R]_(m2 + m1, m1 + m2) := block_mx 0 1%:M 1%:M 0.
  set U' : 'M[R]_(m1 + m2, m2 + m1) := block_mx 0 1%:M 1%:M 0.
  have UU : U *m U' = 1%:M by rewrite mulmx_block !mulmx0 !mul0mx !mulmx1 !addr0 !add0r -scalar_mx_block.
  have UU' : U' *m U = 1%:M by rewrite mulmx_block !mulmx0 !mul0mx !mulmx1 !addr0 !add0r -scalar_mx_block.
  have I1 : 1%:M *m 1%:M = 1%:M :> 'M[R]_n by rewrite mulmx1.
  have := update_coord I1 I1 UU UU' x (col_mx z1 z2) P (col_mx H1 H2) (block_mx R1 0 0 R2) x2 P2.
  rewrite !mul1mx !mulmx1 !trmx1 !mulmx1.
  have -> : U *m col_mx z1 z2 = col_mx z2 z1 by rewrite mul_block_col !mul0mx !mul1mx add0r addr0.
  have -> : U *m col_mx H1 H2 = col_mx H2 H1 by rewrite mul_block_col !mul0mx !mul1mx add0r addr0.
  have -> : U *m block_mx R1 0 0 R2 *m U^T = block_mx R2 0 0 R1.
  { rewrite tr_block_mx !trmx0 !trmx1 !mulmx_block !mul0mx !mul1mx !mulmx0 !mulmx1 ?addr0 ?add0r. by []. }
  move=> ->. by rewrite update_ok.
Qed.

Lemma update_coord_ret n m n' m' (T : 'M[R]_(n', n)) (T' : 'M[R]_(n, n')) (U : 'M[R]_(m', m)) (U' : 'M[R]_(m, m')) :
  T *m T' = 1%:M -> T' *m T = 1%:M -> U *m U' = 1%:M -> U' *m U = 1%:M ->
  forall (x x1 x' : 'cV[R]_n) (z : 'cV[R]_m) (P P1 P' : 'M[R]_n) (H : 'M[R]_(m, n)) (Rk : 'M[R]_m) (y1 : 'cV[R]_n') (V1 : 'M[R]_n'),
  filterUpdate (DV x) (DM P) (DV z) (DM H) (DM Rk) (DV x1) (DM P1) = Ret (true, (DV x', DM P')) ->
  filterUpdate (DV (T *m x)) (DM (T *m P *m T^T)) (DV (U *m z)) (DM (U *m H *m T')) (DM (U *m Rk *m U^T)) (DV y1) (DM V1) =
  Ret (true, (DV (T *m x'), DM (T *m P' *m T^T))).
Proof.
  move=> TT TT' UU UU' x x1 x' z P P1 P' H Rk y1 V1 /update_inv [Us -> ->]. by rewrite (update_coord TT TT' UU UU') Us.
Qed.
