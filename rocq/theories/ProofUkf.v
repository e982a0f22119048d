(** Proofs about the unscented transform. *)
From Coq Require Import Reals Lra.
From mathcomp Require Import all_ssreflect all_algebra.
From Verif Require Import Base BaseMx ModelEigen ModelKalman SpecKalman SpecFilter SpecUkf ProofMx ProofKalman ProofKalman2 ProofKalman3 ProofKalman4.
Set Implicit Arguments.
Unset Strict Implicit.
Unset Printing Implicit Defensive.
Import GRing.Theory.
Local Open Scope ring_scope.
Local Open Scope outcome_scope.

Lemma ukf_predict_linear n (x x1 : 'cV[R]_n) (P P1 Phi Q : 'M[R]_n) (X : 'M[R]_(n, 2 * n + 1)) (W : 'cV[R]_(2 * n + 1)) :
  mean (fun i => W i 0) (fun i => col i X) = x -> cov (fun i => W i 0) (fun i => col i X) = P ->
  filterUkfPredict (DV W) (DM (Phi *m X)) (DM Q) (DV x1) (DM P1) = filterPredict (DV x) (DM P) (DM Phi) (DM Q) (DV x1) (DM P1).
Proof.
  move=> Mx Cx. rewrite ukf_predict_mean predict_ok.
  have Em : mean (fun i => W i 0) (fun i => col i (Phi *m X)) = Phi *m x.
  { rewrite -Mx -mean_mul /mean. by apply: eq_bigr => i _; rewrite col_mul. }
  apply: RetE; first by rewrite Em. rewrite addrC. congr (_ + _). rewrite /cov Em -Cx /cov Mx mulmx_sumr mulmx_suml.
  apply: eq_bigr => i _. by rewrite col_mul -mulmxBr trmx_mul -scalemxAr -scalemxAl !mulmxA.
Qed.

Lemma four (a b c d : R) : a = (a + - d + - (b + - c) + (d + - c) + (b + - c) + c)%R. Proof. toR. ring. Qed.
Lemma second_moment (I : finType) n (p : I -> R) (X : I -> 'cV[R]_n) : weights p ->
  \sum_i p i *: (X i *m (X i)^T) = cov p X + mean p X *m (mean p X)^T.
Proof.
  move=> Wp. have Z := mean_centered X Wp. set m := mean p X in Z *.
  have E : forall i, p i *: (X i *m (X i)^T) =
     p i *: ((X i - m) *m (X i - m)^T) + (p i *: (X i - m)) *m m^T + m *m (p i *: (X i - m))^T + p i *: (m *m m^T).
  { move=> i. rewrite linearZ /= -scalemxAl -scalemxAr -!scalerDr. congr (_ *: _).
    rewrite linearB /= !mulmxBl !mulmxBr.
    move: (X i *m _) (m *m (X i)^T) (m *m m^T) (X i *m m^T) => a b c d.
    apply/matrixP => i0 j0. rewrite !mxE. exact: four. }
  rewrite (eq_bigr _ (fun i _ => E i)) !big_split /= -mulmx_suml Z mul0mx addr0 -mulmx_sumr.
  rewrite (_ : \sum_i (p i *: (X i - m))^T = 0); last by rewrite -trmx_sum Z trmx0.
  by rewrite mulmx0 addr0 -scaler_suml Wp scale1r.
Qed.
Lemma quad_tr n (A : 'M[R]_n) (x : 'cV[R]_n) : (x^T *m A *m x) 0 0 = \tr (A *m (x *m x^T)).
Proof. by rewrite mulmxA mxtrace_mulC mulmxA /mxtrace big_ord1. Qed.
Lemma quad_entry n c B A (x : 'cV[R]_n) k : quadratic c B A x k 0 = c k 0 + (B *m x) k 0 + \tr (A k *m (x *m x^T)).
Proof. by rewrite /quadratic mxE [X in X + _]mxE [X in _ + X]mxE quad_tr. Qed.
Lemma mean_quadratic (I : finType) n (p : I -> R) (X : I -> 'cV[R]_n) c B A : weights p ->
  mean p (fun i => quadratic c B A (X i)) = quadratic c B A (mean p X) + \col_k \tr (A k *m cov p X).
Proof.
  move=> Wp. have S := second_moment X Wp. apply/colP => k.
  rewrite [RHS]mxE quad_entry [X in _ + X]mxE {1}/mean summxE.
  transitivity (\sum_i (p i * c k 0) + \sum_i p i * (B *m X i) k 0 + \sum_i p i * \tr (A k *m (X i *m (X i)^T))).
  { rewrite -!big_split /=. apply: eq_bigr => i _. by rewrite mxE quad_entry !mulrDr. }
  rewrite -mulr_suml (_ : \sum_i p i = 1) // mul1r -!addrA. congr (_ + _).
  rewrite (_ : \sum_i p i * (B *m X i) k 0 = (B *m mean p X) k 0); last first.
  { rewrite -mean_mul /mean summxE. by apply: eq_bigr => i _; rewrite [RHS]mxE. }
  congr (_ + _).
  rewrite (_ : \sum_i p i * \tr (A k *m (X i *m (X i)^T)) = \tr (A k *m (\sum_i p i *: (X i *m (X i)^T)))); last first.
  { rewrite mulmx_sumr raddf_sum /=. apply: eq_bigr => i _. by rewrite -scalemxAr mxtraceZ. }
  by rewrite S mulmxDr mxtraceD addrC.
Qed.
Lemma ukf_quadratic n (W : 'cV[R]_(2 * n + 1)) (X : 'M[R]_(n, 2 * n + 1)) (x x1 x' : 'cV[R]_n) (P Q P1 P' : 'M[R]_n) c B A :
  weights (fun i => W i 0) -> mean (fun i => W i 0) (fun i => col i X) = x -> cov (fun i => W i 0) (fun i => col i X) = P ->
  filterUkfPredict (DV W) (DM (\matrix_(k, i) quadratic c B A (col i X) k 0)) (DM Q) (DV x1) (DM P1) = Ret (true, (DV x', DM P')) ->
  x' = quadratic c B A x + \col_k \tr (A k *m P).
Proof.
  move=> Wp Mx Cx. rewrite ukf_predict_mean => /Ret_inj [_ <- _]. rewrite -Mx -Cx -mean_quadratic //.
  rewrite /mean. apply: eq_bigr => i _. congr (_ *: _). apply/colP => k. by rewrite !mxE.
Qed.

(** ** The usual sigma points *)
Section Sigma.
Variables (n : nat) (x : 'cV[R]_n) (L P : 'M[R]_n) (w0 w : R).
Hypothesis HW : w0 + (n + n)%:R * w = 1.
Hypothesis HL : (w + w) *: (L *m L^T) = P.
Lemma sigma_moments k (e : (1 + (n + n))%N = k) :
  let W := sigma_weights e w0 w in let X := sigma_points e x L in
  weights (fun i => W i 0) /\ mean (fun i => W i 0) (fun i => col i X) = x /\ cov (fun i => W i 0) (fun i => col i X) = P.
Proof.
  case: k / e => W X.
  have EW : W = col_mx (const_mx w0) (col_mx (const_mx w) (const_mx w)) by rewrite /W /sigma_weights castmx_id.
  have EX : X = row_mx x (row_mx (x *m const_mx 1 + L) (x *m const_mx 1 - L)) by rewrite /X /sigma_points castmx_id.
  have W0 : forall i : 'I_1, W (lshift (n + n) i) 0 = w0 by move=> i; rewrite EW col_mxEu mxE.
  have W1 : forall i : 'I_n, W (rshift 1 (lshift n i)) 0 = w by move=> i; rewrite EW col_mxEd col_mxEu mxE.
  have W2 : forall i : 'I_n, W (rshift 1 (rshift n i)) 0 = w by move=> i; rewrite EW !col_mxEd mxE.
  have X0 : forall i : 'I_1, col (lshift (n + n) i) X = x by move=> i; rewrite EX colKl; apply/colP => a; rewrite mxE ord1.
  have X1 : forall i : 'I_n, col (rshift 1 (lshift n i)) X = x + col i L.
  { move=> i. rewrite EX colKr colKl linearD /=. congr (_ + _). apply/colP => a. by rewrite !mxE big_ord1 !mxE mulr1. }
  have X2 : forall i : 'I_n, col (rshift 1 (rshift n i)) X = x - col i L.
  { move=> i. rewrite EX !colKr linearB /=. congr (_ - _). apply/colP => a. by rewrite !mxE big_ord1 !mxE mulr1. }
  have SP : forall (V : zmodType) (F : 'I_(1 + (n + n)) -> V), \sum_i F i = F (lshift (n + n) 0) + (\sum_(i < n) F (rshift 1 (lshift n i)) + \sum_(i < n) F (rshift 1 (rshift n i))).
  { move=> V F. rewrite big_split_ord /= big_ord1. congr (_ + _). by rewrite big_split_ord. }
  have Wp : weights (fun i => W i 0).
  { rewrite /weights SP W0 (eq_bigr _ (fun i _ => W1 i)) (eq_bigr _ (fun i _ => W2 i)) !sumr_const card_ord -mulrnDr -mulr_natl. exact: HW. }
  have Mx : mean (fun i => W i 0) (fun i => col i X) = x.
  { rewrite /mean SP W0 X0 (eq_bigr (fun i => w *: x + w *: col i L)); last by move=> i _; rewrite W1 X1 scalerDr.
    rewrite [X in _ + (_ + X)](eq_bigr (fun i => w *: x - w *: col i L)); last by move=> i _; rewrite W2 X2 scalerBr.
    rewrite -big_split /= (eq_bigr (fun i => (w + w) *: x)); last by move=> i _; rewrite addrACA subrr addr0 scalerDl.
    rewrite sumr_const card_ord -scaler_nat scalerA -scalerDl -[RHS]scale1r -[in RHS]HW. congr (_ *: _). congr (_ + _).
    by rewrite natrD mulrDr mulrDl. }
  split=> //. split=> //. rewrite /cov Mx SP W0 X0 subrr mul0mx scaler0 add0r.
  rewrite (eq_bigr (fun i => w *: (col i L *m (col i L)^T))); last by move=> i _; rewrite W1 X1 addrAC subrr add0r.
  rewrite [X in _ + X](eq_bigr (fun i => w *: (col i L *m (col i L)^T))); last by move=> i _; rewrite W2 X2 addrAC subrr add0r linearN /= mulmxN mulNmx opprK.
  rewrite -!scaler_sumr -scalerDl -HL. congr (_ *: _).
  apply/matrixP => a b. rewrite summxE [RHS]mxE. apply: eq_bigr => i _. by rewrite mxE big_ord1 !mxE.
Qed.
End Sigma.

(** ** The scatter is not determined *)
Definition i0 : 'I_(2 * 1 + 1) := ord0.
Definition i1 : 'I_(2 * 1 + 1) := lift ord0 ord0.
Definition i2 : 'I_(2 * 1 + 1) := lift ord0 (lift ord0 ord0).
Lemma sum3 (V : zmodType) (F : 'I_(2 * 1 + 1) -> V) : \sum_i F i = F i0 + (F i1 + F i2).
Proof. by rewrite !big_ord_recl big_ord0 addr0. Qed.
Lemma mean3 (p : 'I_(2 * 1 + 1) -> R) (Y : 'I_(2 * 1 + 1) -> 'cV[R]_1) : mean p Y 0 0 = p i0 * Y i0 0 0 + (p i1 * Y i1 0 0 + p i2 * Y i2 0 0).
Proof. by rewrite /mean sum3 !mxE. Qed.
Lemma cov3 (p : 'I_(2 * 1 + 1) -> R) (Y : 'I_(2 * 1 + 1) -> 'cV[R]_1) (m : R) : mean p Y 0 0 = m -> cov p Y 0 0 =
  p i0 * ((Y i0 0 0 - m) * (Y i0 0 0 - m)) + (p i1 * ((Y i1 0 0 - m) * (Y i1 0 0 - m)) + p i2 * ((Y i2 0 0 - m) * (Y i2 0 0 - m))).
Proof.
  move=> E. rewrite /cov sum3. have Z : forall i, (p i *: ((Y i - mean p Y) *m (Y i - mean p Y)^T)) 0 0 = p i * ((Y i 0 0 - m) * (Y i 0 0 - m)).
  { move=> i. by rewrite mxE [X in _ * X]mxE big_ord1 !mxE E. }
  by rewrite mxE [X in _ + X]mxE !Z.
Qed.
Definition sel (a b c : R) (i : 'I_(2 * 1 + 1)) : R := match (i : nat) with O => a | 1%N => b | _ => c end.
Lemma sel0 a b c : sel a b c i0 = a. Proof. by []. Qed.
Lemma sel1 a b c : sel a b c i1 = b. Proof. by []. Qed.
Lemma sel2 a b c : sel a b c i2 = c. Proof. by []. Qed.
Lemma one_by_one (M N : 'M[R]_1) : M 0 0 = N 0 0 -> M = N.
Proof. move=> E. apply/matrixP => i j. by rewrite !ord1. Qed.
Section Three.
Variables w0 w a : R.
Let W : 'cV[R]_(2 * 1 + 1) := \col_i sel w0 w w i.
Let X : 'M[R]_(1, 2 * 1 + 1) := \matrix_(k, i) sel 0 a (- a) i.
Let A : 'I_1 -> 'M[R]_1 := fun _ => 1%:M.
Lemma quad1 (v : 'cV[R]_1) : quadratic 0 0 A v 0 0 = v 0 0 * v 0 0.
Proof. by rewrite quad_entry mul0mx /A mul1mx /mxtrace big_ord1 !mxE big_ord1 !mxE !add0r. Qed.
Let Y : 'M[R]_(1, 2 * 1 + 1) := \matrix_(k, i) quadratic 0 0 A (col i X) k 0.
Lemma Wv : W i0 0 = w0 /\ W i1 0 = w /\ W i2 0 = w. Proof. by rewrite !mxE. Qed.
Lemma Xv : col i0 X 0 0 = 0 /\ col i1 X 0 0 = a /\ col i2 X 0 0 = - a. Proof. by rewrite !mxE. Qed.
Lemma Yv i : col i Y 0 0 = col i X 0 0 * col i X 0 0. Proof. by rewrite mxE [Y 0 i]mxE quad1. Qed.
Hypothesis H1 : Rplus w0 (Rmult 2 w) = R1.
Hypothesis H2 : Rmult 2 (Rmult w (Rmult a a)) = R1.
Lemma three : weights (fun i => W i 0) /\ mean (fun i => W i 0) (fun i => col i X) = 0 /\ cov (fun i => W i 0) (fun i => col i X) = 1%:M /\
  mean (fun i => W i 0) (fun i => col i Y) = 1%:M /\ cov (fun i => W i 0) (fun i => col i Y) 0 0 = Rminus (Rmult a a) 1.
Proof.
  have [W0 [W1 W2]] := Wv. have [X0 [X1 X2]] := Xv.
  have M0 : mean (fun i => W i 0) (fun i => col i X) 0 0 = 0 by rewrite mean3 W0 W1 W2 X0 X1 X2; toR; ring.
  have M1 : mean (fun i => W i 0) (fun i => col i Y) 0 0 = 1 by rewrite mean3 W0 W1 W2 !Yv X0 X1 X2; toR; lra.
  split; first by rewrite /weights sum3 W0 W1 W2; toR; lra.
  split; first by apply: one_by_one; rewrite M0 mxE.
  split; first by apply: one_by_one; rewrite (cov3 M0) W0 W1 W2 X0 X1 X2 mxE eqxx; toR; cbn; lra.
  split; first by apply: one_by_one; rewrite M1 mxE.
  rewrite (cov3 M1) W0 W1 W2 !Yv X0 X1 X2. toR. nra.
Qed.
End Three.
Lemma ukf_scatter : exists (W W' : 'cV[R]_(2 * 1 + 1)) (X X' : 'M[R]_(1, 2 * 1 + 1)) (x : 'cV[R]_1) (P : 'M[R]_1) (y : 'cV[R]_1) (S S' : 'M[R]_1) c B A,
  (forall i, Rle 0 (W i 0) /\ Rle 0 (W' i 0)) /\
  weights (fun i => W i 0) /\ mean (fun i => W i 0) (fun i => col i X) = x /\ cov (fun i => W i 0) (fun i => col i X) = P /\
  weights (fun i => W' i 0) /\ mean (fun i => W' i 0) (fun i => col i X') = x /\ cov (fun i => W' i 0) (fun i => col i X') = P /\
  filterUkfPredict (DV W) (DM (\matrix_(k, i) quadratic c B A (col i X) k 0)) (DM (0 : 'M[R]_1)) (DV (0 : 'cV[R]_1)) (DM (0 : 'M[R]_1)) = Ret (true, (DV y, DM S)) /\
  filterUkfPredict (DV W') (DM (\matrix_(k, i) quadratic c B A (col i X') k 0)) (DM (0 : 'M[R]_1)) (DV (0 : 'cV[R]_1)) (DM (0 : 'M[R]_1)) = Ret (true, (DV y, DM S')) /\
  S 0 0 = 0 /\ S' 0 0 = IZR 3.
Proof.
  have [A1 [A2 [A3 [A4 A5]]]] := @three 0 (Rdiv 1 2) 1 ltac:(toR; lra) ltac:(toR; lra).
  have [B1 [B2 [B3 [B4 B5]]]] := @three (Rdiv 3 4) (Rdiv 1 8) (IZR 2) ltac:(toR; lra) ltac:(toR; lra).
  do 4 eexists. exists 0, 1%:M, 1%:M. do 2 eexists. exists 0, 0, (fun _ => 1%:M).
  split; last (split; [exact: A1|split; [exact: A2|split; [exact: A3|split; [exact: B1|split; [exact: B2|split; [exact: B3|]]]]]]).
  { move=> i. rewrite !mxE /sel. case: (nat_of_ord i) => [|[|k]]; toR; lra. }
  split; first by rewrite ukf_predict_mean A4. split; first by rewrite ukf_predict_mean B4.
  rewrite !add0r. split; [rewrite A5|rewrite B5]; toR; lra.
Qed.
