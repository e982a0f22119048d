(** Rounding errors of least squares: the results of the two functions. *)
From Coq Require Import Reals Lra Psatz FunctionalExtensionality.
From mathcomp Require Import all_ssreflect all_algebra.
From Verif Require Import Base BaseMx ModelEigen ModelKalman ModelBls ModelFilterFloat ModelBlsFloat SpecFloatOps SpecKalman SpecFilter SpecBls SpecFilterFloat SpecUpdateFloat SpecBlsFloat
  ProofMx ProofKalman ProofKalman2 ProofKalman3 ProofBls ProofBls2 ProofStrapdownFloat ProofFilterFloat ProofUpdateFloat ProofDisturb2 ProofLopsided ProofLongFloat ProofBlsFloat ProofBlsFloat2.
Set Implicit Arguments.
Unset Strict Implicit.
Unset Printing Implicit Defensive.
Import GRing.Theory.

Section Scal.
Local Open Scope R_scope.
Lemma wab a w b t : (a * (w * w) + t) * b = w * a * (w * b) + t * b.
Proof. ring. Qed.
Lemma wvv v w : v * (w * w) * v = w * v * (w * v).
Proof. ring. Qed.
Lemma split3 a b t : a + t * b + t = a + t * (1 + b).
Proof. ring. Qed.
Lemma half_ec e c n l : 0 < l -> c = n / l -> 2 * n * e <= l -> 0 <= n -> 0 <= e -> 0 <= c /\ 0 <= e * c <= 1 / 2.
Proof.
  move=> L -> H N E. have C : 0 <= n / l by apply: Rmult_le_pos => //; apply: Rlt_le; exact: Rinv_0_lt_compat.
  split=> //. split; first exact: Rmult_le_pos. apply: (Rmult_le_reg_r l) => //. have -> : e * (n / l) * l = e * n by field; lra. lra.
Qed.
Lemma sqrt_bound q b Y : 0 <= q -> 0 <= Y -> 0 <= b -> sqrt q <= b * sqrt Y -> q <= b * b * Y.
Proof.
  move=> Q Y0 B H. have := Rmult_le_compat _ _ _ _ (sqrt_pos q) (sqrt_pos q) H H. rewrite sqrt_sqrt // => K.
  have := sqrt_sqrt Y Y0. move=> E. have : b * sqrt Y * (b * sqrt Y) = b * b * (sqrt Y * sqrt Y) by ring. rewrite E. lra.
Qed.
Lemma comp_bound a d q b : 0 <= a -> a * (d * d) <= q -> sqrt q <= b -> sqrt a * Rabs d <= b.
Proof.
  move=> A H B. apply: Rle_trans _ B. rewrite -sqrt_Rsqr_abs -sqrt_mult_alt //. exact: sqrt_le_1_alt.
Qed.
End Scal.

Local Open Scope ring_scope.
Local Open Scope outcome_scope.

Lemma sqrt_neg a : Rle a 0 -> sqrt a = 0.
Proof. move=> A. case: (Rle_lt_or_eq_dec _ _ A) => [B|->]; last exact: sqrt_0. exact: sqrt_neg_0. Qed.
(** With independent columns there is one best fit. *)
Lemma unique_fit m n (W : 'M[R]_m) (H : 'M[R]_(m, n)) (y : 'cV[R]_m) l (x z : 'cV[R]_n) : psd W -> Rlt 0 l -> apart l (H^T *m W *m H) ->
  (forall i, Rlt 0 ((H^T *m W *m H) i i)) -> H^T *m W *m H *m x = H^T *m W *m y -> best_fit W H y z -> z = x.
Proof.
  move=> HW L HA D Ex BZ. have := BZ x. rewrite (normal_split z (proj1 HW) Ex) => B.
  apply/matrixP => i j. rewrite !ord1. have := apart_full (z - x) i L (fun i => Rlt_le _ _ (D i)) HA. rewrite [X in Rmult X X]mxE [X in _ + X]mxE.
  move: B (D i). move: (qf _ (y - _)) (qf _ (z - x)) => a b. toR => B. move: (z i 0) (x i 0) ((H^T *m W *m H) i i) => p q w. rewrite -/(Rminus p q) => P K.
  have : Rle (Rmult (Rmult l w) (Rmult (p - q) (p - q))) 0 by toR; lra.
  have LW : Rlt 0 (Rmult l w) by exact: Rmult_lt_0_compat. have S := Rle_0_sqr (Rminus p q). rewrite /Rsqr in S. toR => Z.
  have E : Rmult (Rminus p q) (Rminus p q) = R0.
  { apply: Rle_antisym => //. apply: (Rmult_le_reg_l _ _ _ LW). rewrite Rmult_0_r. exact: Z. }
  have := Rmult_integral _ _ E. case; lra.
Qed.

Section Main.
Variables (r : R -> R) (dot : dot_fun) (N m n : nat) (solve : 'M[R]_n -> 'cV[R]_n -> outcome 'cV[R]_n).
Hypothesis Hr : rnd_ok r.
Hypothesis Hd : dot_ok dot.
Hypothesis HN : Rle (INR N) 1000000.
Hypothesis Hn : (n <= N)%N.
Hypothesis Hm : (m <= N)%N.
Variables (H : 'M[R]_(m, n)) (y : 'cV[R]_m) (l s : R) (xf : 'cV[R]_n) (Jf : R).
Hypothesis L0 : Rlt 0 l.
Hypothesis L1 : Rle l 1.
Hypothesis S0 : Rle 0 s.
Let v := vN N.
Let c := Rdiv (INR n) l.

Lemma weighted_bound W q : psd W -> apart l (H^T *m W *m H) -> Rle 1 q ->
  (forall i j, Rle (size_mul (size_mul H^T W) H i j) (Rmult q (Rmult (sqrt ((H^T *m W *m H) i i)) (sqrt ((H^T *m W *m H) j j))))) ->
  (forall i, Rle (size_mul (size_mul H^T W) y i 0) (Rmult q (Rmult (sqrt ((H^T *m W *m H) i i)) (sqrt (qf W y))))) ->
  (forall x', solve (wnormal_f dot H W) (wrhs_f dot H W y) = Ret x' -> solved s (wnormal_f dot H W) (wrhs_f dot H W y) x') ->
  weighted_f r dot solve y H W = Ret (xf, Jf) ->
  Rle (Rmult (Rmult 2 (INR n)) (Rplus (Rmult 2 s) (Rmult (Rmult 6 q) v))) l ->
  exists x : 'cV[R]_n, best_fit W H y x /\ (forall z, best_fit W H y z -> z = x) /\
    let e := Rplus (Rmult 2 s) (Rmult (Rmult 6 q) v) in
    Rle (sqrt (qf W (H *m (xf - x)))) (Rmult (Rmult 4 (Rmult e c)) (sqrt (qf W y))) /\
    (forall i, Rle (Rmult (sqrt (Rmult l ((H^T *m W *m H) i i))) (Rabs (Rminus (xf i 0) (x i 0)))) (Rmult (Rmult 4 (Rmult e c)) (sqrt (qf W y)))) /\
    Rle (qf W (y - H *m xf)) (Rplus (qf W (y - H *m x)) (Rmult (Rmult (Rmult 4 (Rmult e c)) (Rmult 4 (Rmult e c))) (qf W y))) /\
    Rle (Rabs (Rminus Jf (Rmult (Rdiv 1 2) (sq (y - H *m xf))))) (Rmult (Rmult 10 v) (Rplus (sq (resid_size H y xf)) tiny64)).
Proof.
  move=> HW HA Q1 SN SR HS HF HE. have [V0 [V1 V2]] := vN_bounds HN. rewrite -/v in V0 V1 V2.
  have [x Ex] := normal_solvable H y HW. exists x. split; first exact: normal_best. split.
  { move=> z BZ. apply: (unique_fit HW L0 HA _ Ex BZ) => i. have := SN i i. have := size_mul_tiny (size_mul H^T W) H i i. have := tiny_pos. have := sqrt_pos ((H^T *m W *m H) i i).
    move: (size_mul _ _ i i) => a. case: (Rle_lt_dec ((H^T *m W *m H) i i) 0) => // K. rewrite (sqrt_neg K). rlra. }
  move=> e.
  have [Exf ->] : solve (wnormal_f dot H W) (wrhs_f dot H W y) = Ret xf /\ Jf = cost_f r dot y H xf.
  { move: HF. rewrite /weighted_f. case: solve => //= x' [E1 E2]. by rewrite -E2 E1. }
  have e0 : Rle 0 e by rewrite /e; apply: Rplus_le_le_0_compat; apply: Rmult_le_pos; lra.
  have [C0 [A0 A1]] := half_ec L0 (erefl c) HE (pos_INR n) e0.
  have E4 : Rle 0 (Rmult 4 (Rmult e c)) by apply: Rmult_le_pos; [lra|exact: A0].
  have y0 : Rle 0 (qf W y) by exact: (proj2 HW).
  have LS : Rle (sqrt (qf (H^T *m W *m H) (xf - x))) (Rmult (Rmult 4 (Rmult e c)) (sqrt (qf W y))).
  { apply: (@ls_core _ _ W H y _ _ _ _ s (Rmult (Rmult 6 q) v) l HW L0 L1 HA S0 _ _ _ (HS _ Exf) Ex HE).
    - apply: Rmult_le_pos; lra.
    - move=> i j. have := proj1 (near_wnormal Hd HN Hm H W i j). have := SN i j. have : Rle 0 (Rmult 6 v) by lra.
      move: (size_mul _ _ i j) (Rmult (sqrt _) _) => a b. rewrite -/v => P A B. apply: Rle_trans B _. have := Rmult_le_compat_l _ _ _ P A. lra.
    - move=> i. have := proj1 (near_wrhs Hd HN Hm H y W i 0). have := SR i. have : Rle 0 (Rmult 6 v) by lra.
      move: (size_mul _ _ i 0) (sqrt _) (sqrt (qf W y)) => a b b'. rewrite -/v => P A B. apply: Rle_trans B _. have := Rmult_le_compat_l _ _ _ P A. lra. }
  have QH : qf W (H *m (xf - x)) = qf (H^T *m W *m H) (xf - x) by rewrite /qf trmx_mul !mulmxA.
  have D0 i : Rle 0 ((H^T *m W *m H) i i) by have := proj2 (psd_congrT H HW) (delta_mx i 0); rewrite /qf delta_entry.
  split; first by rewrite QH. split.
  { move=> i. apply: comp_bound LS; first by apply: Rmult_le_pos => //; lra.
    have := apart_full (xf - x) i L0 D0 HA. by rewrite [X in Rmult X X]mxE [X in _ + X]mxE. }
  split.
  { rewrite (normal_split xf (proj1 HW) Ex). have := sqrt_bound (proj2 (psd_congrT H HW) (xf - x)) y0 _ LS. 
    move: (qf _ (y - _)) (qf _ (xf - x)) => a b K. have := K E4. rlra. }
  exact: cost_near.
Qed.

Lemma unweighted_bound : apart l (H^T *m H) -> (forall i, Rle tiny64 ((H^T *m H) i i)) -> Rle tiny64 (sq y) ->
  (forall x', solve (normal_f dot H) (rhs_f dot H y) = Ret x' -> solved s (normal_f dot H) (rhs_f dot H y) x') ->
  unweighted_f r dot solve y H = Ret (xf, Jf) ->
  Rle (Rmult (Rmult 2 (INR n)) (Rplus (Rmult 2 s) (Rmult 6 v))) l ->
  exists x : 'cV[R]_n, (forall z, Rle (sq (y - H *m x)) (sq (y - H *m z))) /\ (forall z, Rle (sq (y - H *m z)) (sq (y - H *m x)) -> z = x) /\
    let e := Rplus (Rmult 2 s) (Rmult 6 v) in
    Rle (len (H *m (xf - x))) (Rmult (Rmult 4 (Rmult e c)) (len y)) /\
    (forall i, Rle (Rmult (sqrt (Rmult l ((H^T *m H) i i))) (Rabs (Rminus (xf i 0) (x i 0)))) (Rmult (Rmult 4 (Rmult e c)) (len y))) /\
    Rle (sq (y - H *m xf)) (Rplus (sq (y - H *m x)) (Rmult (Rmult (Rmult 4 (Rmult e c)) (Rmult 4 (Rmult e c))) (sq y))) /\
    Rle (Rabs (Rminus Jf (Rmult (Rdiv 1 2) (sq (y - H *m x))))) (Rmult (Rplus (Rmult (Rplus 70 (Rmult 300 c)) v) (Rmult 8 (Rmult (Rmult e c) (Rmult e c)))) (sq y)).
Proof.
  move=> HA TA TY HS HF HE. have [V0 [V1 V2]] := vN_bounds HN. rewrite -/v in V0 V1 V2. have HW := pd_psd (pd1 m).
  have [x Ex] := normal_solvable H y HW. exists x. split; first by move=> z; rewrite -!sq_qf; exact: normal_best. split.
  { move=> z BZ. apply: (@unique_fit _ _ 1%:M H y l x z HW L0 _ _ Ex); rewrite ?mulmx1 //; move=> w; first by have := TA w; have := tiny_pos; lra.
    rewrite !sq_qf. apply: Rle_trans BZ _. rewrite -!sq_qf. exact: normal_best. }
  move=> e.
  have [Exf ->] : solve (normal_f dot H) (rhs_f dot H y) = Ret xf /\ Jf = cost_f r dot y H xf.
  { move: HF. rewrite /unweighted_f. case: solve => //= x' [E1 E2]. by rewrite -E2 E1. }
  have e0 : Rle 0 e by rewrite /e; apply: Rplus_le_le_0_compat; apply: Rmult_le_pos; lra.
  have [C0 [A0 A1]] := half_ec L0 (erefl c) HE (pos_INR n) e0.
  have E4 : Rle 0 (Rmult 4 (Rmult e c)) by apply: Rmult_le_pos; [lra|exact: A0].
  have y0 := sq_ge0 y.
  have LS : Rle (sqrt (qf (H^T *m H) (xf - x))) (Rmult (Rmult 4 (Rmult e c)) (sqrt (sq y))).
  { have := @ls_core _ _ 1%:M H y (normal_f dot H) (rhs_f dot H y) x xf s (Rmult 6 v) l HW L0 L1. rewrite mulmx1 sq_qf. apply => //.
    - lra.
    - move=> i j. have := proj1 (near_normal Hd HN Hm H i j). have := size_normal i j TA. have : Rle 0 (Rmult 3 v) by lra.
      move: (size_mul _ _ i j) (Rmult (sqrt _) _) => a b. rewrite -/v => P A B. apply: Rle_trans B _. have := Rmult_le_compat_l _ _ _ P A. lra.
    - move=> i. have := proj1 (near_rhs Hd HN Hm H y i 0). have := size_rhs i TA TY. have : Rle 0 (Rmult 3 v) by lra.
      move: (size_mul _ _ i 0) (sqrt _) (sqrt (sq y)) => a b b'. rewrite -/v => P A B. apply: Rle_trans B _. have := Rmult_le_compat_l _ _ _ P A. lra.
    - exact: HS.
    - by move: Ex; rewrite mulmx1. }
  have HP : psd (H^T *m H) by have := psd_congrT H HW; rewrite mulmx1.
  have QH (z : 'cV[R]_n) : sq (H *m z) = qf (H^T *m H) z by rewrite sq_mul /qf trmx_mul !mulmxA.
  have QB := sqrt_bound (proj2 HP (xf - x)) y0 E4 LS.
  have SP : sq (y - H *m xf) = Rplus (sq (y - H *m x)) (qf (H^T *m H) (xf - x)).
  { have := normal_split xf (proj1 HW) Ex. by rewrite !sq_qf mulmx1. }
  split; first by rewrite /len QH. split.
  { move=> i. apply: comp_bound LS; first by apply: Rmult_le_pos; [lra|exact: diag0].
    have := apart_full (xf - x) i L0 (diag0 H) HA. by rewrite [X in Rmult X X]mxE [X in _ + X]mxE. }
  split; first by rewrite SP; lra.
  have CN := cost_near Hr Hd HN Hn Hm H y xf. rewrite -/v in CN.
  apply: (total_scal V0 C0 CN _ SP (proj2 HP _) QB).
  have T0 := tiny_pos. have T1 := tiny_small.
  have M : Rle (INR m) 1000000 by apply: Rle_trans _ HN; apply: le_INR; apply/leP.
  apply: (@size_scal _ (INR m) _ _ _ (Rmult e c) (qf (H^T *m H) xf)).
  - lra.
  - split=> //. exact: pos_INR.
  - exact: TY.
  - exact: C0.
  - by split; [exact: A0|exact: A1].
  - have := qf_two x (xf - x) HP. have -> : x + (xf - x) = xf by mx_abel.
    have Y : Rle (qf (H^T *m H) x) (sq y).
    { have := normal_split (0 : 'cV[R]_n) (proj1 HW) Ex. rewrite mulmx0 subr0 !sq_qf mulmx1 sub0r qf_opp => ->. have := sq_ge0 (y - H *m x).
      move: (sq _) (qf _ _) => a b. rlra. }
    move: QB Y. move: (qf _ xf) (qf _ x) (qf _ (xf - x)) (sq y) => a b a' b' P Q K. lra.
  - have := resid_size_sq y xf L0 HA. rewrite -/c. lra.
Qed.
End Main.

(** Diagonal weights. *)
Section Diagonal.
Variables (m n : nat) (W : 'M[R]_m) (H : 'M[R]_(m, n)) (y : 'cV[R]_m).
Hypothesis Woff : forall i j, i != j -> W i j = 0.
Hypothesis W0 : forall i, Rle 0 (W i i).
Let A := H^T *m W *m H.
Lemma diag_psd : psd W.
Proof.
  split.
  - apply/matrixP => i j. rewrite mxE. case: (eqVneq i j) => [->//|K]. rewrite !Woff //. by rewrite eq_sym.
  - move=> v. rewrite /qf mxE. apply: sum_ge0 => j. rewrite mxE (bigD1 j) //= big1 => [|i K]; last by rewrite Woff // mulr0.
    rewrite addr0 !mxE. toR. have := Rmult_le_pos _ _ (W0 j) (Rle_0_sqr (v j 0)). rewrite /Rsqr. lra.
Qed.
(** The absolute values of the rows, weighted. *)
Lemma diag_size p (v : 'M[R]_(m, p)) i j : size_mul (size_mul H^T W) v i j =
  Rplus (\sum_k Rmult (Rabs (Rmult (sqrt (W k k)) (H k i))) (Rabs (Rmult (sqrt (W k k)) (v k j)))) (Rmult tiny64 (Rplus 1 (\sum_k Rabs (v k j)))).
Proof.
  rewrite /size_mul mxE [const_mx _ _ _]mxE mxE.
  have E k : (map_mx Rabs (map_mx Rabs H^T *m map_mx Rabs W + const_mx tiny64)) i k * (map_mx Rabs v) k j =
    Rplus (Rmult (Rabs (Rmult (sqrt (W k k)) (H k i))) (Rabs (Rmult (sqrt (W k k)) (v k j)))) (Rmult tiny64 (Rabs (v k j))).
  { rewrite mxE [map_mx _ v _ _]mxE mxE [const_mx _ _ _]mxE mxE (bigD1 k) //= big1 => [|q K]; last by rewrite [map_mx _ W _ _]mxE Woff // Rabs_R0 mulr0.
    rewrite !mxE addr0. toR. have WW := sqrt_sqrt _ (W0 k). have := Rabs_pos (H k i). have := Rabs_pos (v k j). have T := tiny_pos. have S := sqrt_pos (W k k).
    rewrite !Rabs_mult (Rabs_right (sqrt _)); last exact: Rle_ge. rewrite (Rabs_right (W k k)); last exact: Rle_ge (W0 k).
    move: (Rabs (H k i)) (Rabs (v k j)) (sqrt (W k k)) S WW => a b w S WW B0 A0. rewrite -WW. rewrite Rabs_right; first exact: wab.
    apply: Rle_ge. have := Rmult_le_pos _ _ A0 (Rmult_le_pos _ _ S S). lra. }
  rewrite (eq_bigr _ (fun k _ => E k)) big_split /= -sum_scale. exact: split3.
Qed.
Definition scaled p (v : 'M[R]_(m, p)) : 'M[R]_(m, p) := \matrix_(k, j) Rmult (sqrt (W k k)) (v k j).
Lemma diag_entry i : A i i = sq (col i (scaled H)).
Proof.
  rewrite /A mxE /sq. apply: eq_bigr => k _. rewrite !mxE (bigD1 k) //= big1 => [|q K]; last by rewrite Woff // mulr0.
  rewrite addr0 !mxE. toR. have := sqrt_sqrt _ (W0 k). move: (sqrt _) => w WW. rewrite -[in LHS]WW. exact: wvv.
Qed.
Lemma diag_qf : qf W y = sq (scaled y).
Proof.
  rewrite /qf mxE /sq. apply: eq_bigr => k _. rewrite !mxE (bigD1 k) //= big1 => [|q K]; last by rewrite Woff // mulr0.
  rewrite addr0 !mxE. toR. have := sqrt_sqrt _ (W0 k). move: (sqrt _) => w WW. rewrite -[in LHS]WW. exact: wvv.
Qed.
Lemma diag_size_normal : (forall i j, Rle (Rmult tiny64 (Rplus 1 (\sum_k Rabs (H k j)))) (A i i)) ->
  forall i j, Rle (size_mul (size_mul H^T W) H i j) (Rmult 2 (Rmult (sqrt (A i i)) (sqrt (A j j)))).
Proof.
  move=> T i j. have T0 : Rle 0 (Rmult tiny64 (Rplus 1 (\sum_k Rabs (H k j)))).
  { apply: Rmult_le_pos; first exact: Rlt_le tiny_pos. have : Rle 0 (\sum_k Rabs (H k j)) by apply: sum_ge0 => k; exact: Rabs_pos. move: (\sum_k _) => a. lra. }
  have := tiny_mean T0 (T i j) (T j j). rewrite diag_size !diag_entry. have := abs_dot (col i (scaled H)) (col j (scaled H)).
  have -> : \sum_i0 Rmult (Rabs (col i (scaled H) i0 0)) (Rabs (col j (scaled H) i0 0)) = \sum_k Rmult (Rabs (Rmult (sqrt (W k k)) (H k i))) (Rabs (Rmult (sqrt (W k k)) (H k j))).
  { apply: eq_bigr => k _. by rewrite !mxE. }
  move: (\sum_k _) (Rmult (sqrt _) _) (Rmult tiny64 _) => a b c. rlra.
Qed.
Lemma diag_size_rhs : (forall i, Rle (Rmult tiny64 (Rplus 1 (\sum_k Rabs (y k 0)))) (A i i)) -> Rle (Rmult tiny64 (Rplus 1 (\sum_k Rabs (y k 0)))) (qf W y) ->
  forall i, Rle (size_mul (size_mul H^T W) y i 0) (Rmult 2 (Rmult (sqrt (A i i)) (sqrt (qf W y)))).
Proof.
  move=> T TY i. have T0 : Rle 0 (Rmult tiny64 (Rplus 1 (\sum_k Rabs (y k 0)))).
  { apply: Rmult_le_pos; first exact: Rlt_le tiny_pos. have : Rle 0 (\sum_k Rabs (y k 0)) by apply: sum_ge0 => k; exact: Rabs_pos. move: (\sum_k _) => a. lra. }
  have := tiny_mean T0 (T i) TY. rewrite diag_size diag_entry diag_qf. have := abs_dot (col i (scaled H)) (scaled y).
  have -> : \sum_i0 Rmult (Rabs (col i (scaled H) i0 0)) (Rabs (scaled y i0 0)) = \sum_k Rmult (Rabs (Rmult (sqrt (W k k)) (H k i))) (Rabs (Rmult (sqrt (W k k)) (y k 0))).
  { apply: eq_bigr => k _. by rewrite !mxE. }
  move: (\sum_k _) (Rmult (sqrt _) _) (Rmult tiny64 _) => a b c. rlra.
Qed.
End Diagonal.
