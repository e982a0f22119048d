(** Proofs about the filters, part 2: estimation theory. *)
From Coq Require Import Reals Lra.
From mathcomp Require Import all_ssreflect all_algebra.
From Verif Require Import Base BaseMx ModelEigen ModelKalman SpecKalman SpecFilter ProofMx ProofKalman.
Set Implicit Arguments.
Unset Strict Implicit.
Unset Printing Implicit Defensive.
Import GRing.Theory.
Local Open Scope ring_scope.
Local Open Scope outcome_scope.

Lemma trmx_sum (I : finType) n m (F : I -> 'M[R]_(n, m)) : (\sum_i F i)^T = \sum_i (F i)^T.
Proof. exact: linear_sum. Qed.

Section Gain.
Variables (n m : nat) (P : 'M[R]_n) (H : 'M[R]_(m, n)) (Rk : 'M[R]_m).
Let S := H *m P *m H^T + Rk.
Let K := gain P H Rk.

Lemma joseph_expand (L : 'M[R]_(n, m)) : joseph P H Rk L = P - L *m H *m P - P *m H^T *m L^T + L *m S *m L^T.
Proof.
  rewrite /joseph /S [(1%:M - L *m H)^T]linearB /= trmx1 trmx_mul.
  rewrite mulmxBl mul1mx mulmxBr mulmx1 mulmxBl mulmxDr mulmxDl !mulmxA.
  mx_abel.
Qed.

Hypothesis U : S \in unitmx.
Lemma gainS : K *m S = P *m H^T.
Proof. by rewrite /K /gain -/S mulmxKV. Qed.
Lemma joseph_gain : joseph P H Rk K = P - K *m H *m P.
Proof. by rewrite joseph_expand -/K gainS addrNK. Qed.
Lemma joseph_gain' : joseph P H Rk K = (1%:M - K *m H) *m P.
Proof. by rewrite joseph_gain mulmxBl mul1mx. Qed.

Hypothesis (SP : symmetric P) (SR : symmetric Rk).
Lemma S_sym : symmetric S.
Proof. by rewrite /symmetric /S linearD /= !trmx_mul trmxK SP SR mulmxA. Qed.
Lemma HP_gain : H *m P = S *m K^T.
Proof. by rewrite -[H *m P]trmxK trmx_mul SP -gainS trmx_mul S_sym. Qed.
Lemma joseph_optimal (L : 'M[R]_(n, m)) :
  joseph P H Rk L = joseph P H Rk K + (L - K) *m S *m (L - K)^T.
Proof.
  have E1 := HP_gain. have E2 := gainS. rewrite joseph_gain joseph_expand. move: K E1 E2 => G E1 E2.
  rewrite -!mulmxA E1 !mulmxA -E2.
  rewrite [(L - G)^T]linearB /= mulmxBr !mulmxBl.
  mx_abel.
Qed.
End Gain.

(** ** Ensembles *)
Section Ensemble.
Variables (I J : finType) (p : I -> R) (q : J -> R).
Hypotheses (Wp : weights p) (Wq : weights q).

Lemma mean_fst n (X : I -> 'cV[R]_n) : mean (pprod p q) (fun k => X k.1) = mean p X.
Proof.
  rewrite /mean /pprod -(pair_bigA _ (fun i j => (p i * q j) *: X i)) /=. apply: eq_bigr => i _.
  by rewrite -scaler_suml -mulr_sumr Wq mulr1.
Qed.
Lemma mean_snd n (X : J -> 'cV[R]_n) : mean (pprod p q) (fun k => X k.2) = mean q X.
Proof.
  rewrite /mean /pprod -(pair_bigA _ (fun i j => (p i * q j) *: X j)) exchange_big /=. apply: eq_bigr => j _.
  by rewrite -scaler_suml -mulr_suml Wp mul1r.
Qed.
End Ensemble.
Lemma meanD (I : finType) n (p : I -> R) (X Y : I -> 'cV[R]_n) : mean p (fun i => X i + Y i) = mean p X + mean p Y.
Proof. rewrite /mean -big_split /=. by apply: eq_bigr => i _; rewrite scalerDr. Qed.
Lemma mean_mul (I : finType) n m (p : I -> R) (A : 'M[R]_(m, n)) (X : I -> 'cV[R]_n) : mean p (fun i => A *m X i) = A *m mean p X.
Proof. rewrite /mean mulmx_sumr. by apply: eq_bigr => i _; rewrite scalemxAr. Qed.
Lemma mean_const (I : finType) n (p : I -> R) (c : 'cV[R]_n) : weights p -> mean p (fun _ => c) = c.
Proof. by move=> W; rewrite /mean -scaler_suml W scale1r. Qed.
Lemma mean_centered (I : finType) n (p : I -> R) (X : I -> 'cV[R]_n) : weights p -> \sum_i p i *: (X i - mean p X) = 0.
Proof.
  move=> W. transitivity (mean p X + - mean p X); last by rewrite subrr.
  rewrite -[X in _ = _ + X](mean_const (p := p)) // -meanD. by [].
Qed.

(** Covariance of A X + B Y for independent X, Y. *)
Lemma cov_indep (I J : finType) (p : I -> R) (q : J -> R) a b n (A : 'M[R]_(n, a)) (B : 'M[R]_(n, b))
    (X : I -> 'cV[R]_a) (Y : J -> 'cV[R]_b) : weights p -> weights q ->
  mean (pprod p q) (fun k => A *m X k.1 + B *m Y k.2) = A *m mean p X + B *m mean q Y /\
  cov (pprod p q) (fun k => A *m X k.1 + B *m Y k.2) = A *m cov p X *m A^T + B *m cov q Y *m B^T.
Proof.
  move=> Wp Wq.
  have M : mean (pprod p q) (fun k => A *m X k.1 + B *m Y k.2) = A *m mean p X + B *m mean q Y.
  { rewrite (meanD _ (fun k => A *m X k.1) (fun k => B *m Y k.2)).
    by rewrite (mean_fst _ Wq (fun i => A *m X i)) (mean_snd _ Wp (fun j => B *m Y j)) !mean_mul. }
  split=> //. rewrite /cov M /pprod.
  set x := fun i => A *m (X i - mean p X). set y := fun j => B *m (Y j - mean q Y).
  have Zx : \sum_i p i *: x i = 0.
  { rewrite /x -[RHS](mulmx0 _ A) -(mean_centered X Wp) mulmx_sumr. by apply: eq_bigr => i _; rewrite scalemxAr. }
  have Zy : \sum_j q j *: y j = 0.
  { rewrite /y -[RHS](mulmx0 _ B) -(mean_centered Y Wq) mulmx_sumr. by apply: eq_bigr => i _; rewrite scalemxAr. }
  transitivity (\sum_i \sum_j (p i * q j) *: ((x i + y j) *m (x i + y j)^T)).
  { rewrite pair_bigA /=. apply: eq_bigr => k _. congr (_ *: _).
    have -> : A *m X k.1 + B *m Y k.2 - (A *m mean p X + B *m mean q Y) = x k.1 + y k.2.
    { rewrite /x /y !mulmxBr. mx_abel. }
    by []. }
  have E i j : (p i * q j) *: ((x i + y j) *m (x i + y j)^T) =
     (p i * q j) *: (x i *m (x i)^T) + p i *: (x i *m (q j *: y j)^T) + q j *: ((y j) *m (p i *: x i)^T) + (p i * q j) *: (y j *m (y j)^T).
  { rewrite [(x i + y j)^T]linearD /= mulmxDl !mulmxDr !scalerDr ![(_ *: _)^T]linearZ /= -!scalemxAr !scalerA [q j * p i]mulrC. by rewrite !addrA. }
  transitivity (\sum_i p i *: (x i *m (x i)^T) + \sum_j q j *: (y j *m (y j)^T)).
  { under eq_bigr do under eq_bigr do rewrite E.
    under eq_bigr do rewrite !big_split /=.
    rewrite !big_split /=.
    have -> : \sum_i \sum_j p i *: (x i *m (q j *: y j)^T) = 0.
    { apply: big1 => i _. by rewrite -scaler_sumr -mulmx_sumr -trmx_sum Zy trmx0 mulmx0 scaler0. }
    have -> : \sum_i \sum_j q j *: (y j *m (p i *: x i)^T) = 0.
    { rewrite exchange_big /=. apply: big1 => j _. by rewrite -scaler_sumr -mulmx_sumr -trmx_sum Zx trmx0 mulmx0 scaler0. }
    rewrite !addr0. congr (_ + _).
    - apply: eq_bigr => i _. by rewrite -scaler_suml -mulr_sumr Wq mulr1.
    - rewrite exchange_big /=. apply: eq_bigr => j _. by rewrite -scaler_suml -mulr_suml Wp mul1r. }
  congr (_ + _).
  - rewrite mulmx_sumr mulmx_suml. apply: eq_bigr => i _. by rewrite /x trmx_mul -scalemxAr -scalemxAl !mulmxA.
  - rewrite mulmx_sumr mulmx_suml. apply: eq_bigr => i _. by rewrite /y trmx_mul -scalemxAr -scalemxAl !mulmxA.
Qed.

(** ** C44 *)
Lemma predict_ensemble (I J : finType) (p : I -> R) (q : J -> R) n (X : I -> 'cV[R]_n) (V : J -> 'cV[R]_n) (Phi P1 : 'M[R]_n) (x1 : 'cV[R]_n) :
  weights p -> weights q -> mean q V = 0 ->
  let Y : I * J -> 'cV[R]_n := fun k => Phi *m X k.1 + V k.2 in
  filterPredict (DV (mean p X)) (DM (cov p X)) (DM Phi) (DM (cov q V)) (DV x1) (DM P1) =
  Ret (true, (DV (mean (pprod p q) Y), DM (cov (pprod p q) Y))).
Proof.
  move=> Wp Wq Z Y. rewrite predict_ok.
  have [M C] := cov_indep Phi 1%:M X V Wp Wq.
  have E : Y = (fun k => Phi *m X k.1 + 1%:M *m V k.2).
  { apply: FunctionalExtensionality.functional_extensionality => k. by rewrite mul1mx. }
  by rewrite E M C Z mulmx0 addr0 trmx1 mul1mx mulmx1.
Qed.

(** Equal dynamic matrices have equal coefficients. *)
Lemma DM_inj n m (A B : 'M[R]_(n, m)) : DM A = DM B -> A = B.
Proof. move=> E. have := f_equal (as_mx n m) E. rewrite !as_mx_ok. by case. Qed.
Lemma DV_inj n (A B : 'cV[R]_n) : DV A = DV B -> A = B.
Proof. move=> E. have := f_equal (as_cv n) E. rewrite !as_cv_ok. by case. Qed.
Lemma Ret_inj n (b b' : bool) (x y : 'cV[R]_n) (A B : 'M[R]_n) :
  Ret (b, (DV x, DM A)) = Ret (b', (DV y, DM B)) -> [/\ b = b', x = y & A = B].
Proof.
  move=> E. have E' : (b, (DV x, DM A)) = (b', (DV y, DM B)) 
  by exact: (f_equal (fun o => match o with Ret a => a | _ => (b, (DV x, DM A)) end) E).
  split.
  - exact: (f_equal fst E').
  - apply: DV_inj. exact: (f_equal (fun r => r.2.1) E').
  - apply: DM_inj. exact: (f_equal (fun r => r.2.2) E').
Qed.

(** ** C44, C45 *)
Lemma predict_psd n (x x1 x' : 'cV[R]_n) (P Phi Q P1 P' : 'M[R]_n) :
  filterPredict (DV x) (DM P) (DM Phi) (DM Q) (DV x1) (DM P1) = Ret (true, (DV x', DM P')) ->
  psd P -> psd Q -> psd P' /\ loewner Q P'.
Proof.
  rewrite predict_ok => /Ret_inj [_ _ <-] HP HQ. have H := psd_congr Phi HP.
  split; first exact: psdD. rewrite addrC. exact: loewner_add.
Qed.

Section Update.
Variables (n m : nat) (x x1 x' : 'cV[R]_n) (z : 'cV[R]_m) (P P1 P' : 'M[R]_n) (H : 'M[R]_(m, n)) (Rk : 'M[R]_m).
Hypothesis E : filterUpdate (DV x) (DM P) (DV z) (DM H) (DM Rk) (DV x1) (DM P1) = Ret (true, (DV x', DM P')).

Lemma update_inv : [/\ H *m P *m H^T + Rk \in unitmx, x' = x + gain P H Rk *m (z - H *m x)
   & P' = joseph P H Rk (gain P H Rk)].
Proof. move: E. rewrite update_ok. case: ifP => // U. by case/Ret_inj => _ <- <-. Qed.

Lemma update_psd : psd P -> psd Rk -> psd P'.
Proof. case: update_inv => _ _ -> HP HR. apply: psdD; exact: psd_congr. Qed.
Lemma update_short : exists K : 'M[R]_(n, m), [/\ K *m (H *m P *m H^T + Rk) = P *m H^T, x' = x + K *m (z - H *m x) & P' = (1%:M - K *m H) *m P].
Proof.
  case: update_inv => U -> ->. exists (gain P H Rk). split=> //; [exact: gainS|exact: joseph_gain'].
Qed.
Lemma update_optimal (L : 'M[R]_(n, m)) : psd P -> psd Rk ->
  loewner P' ((1%:M - L *m H) *m P *m (1%:M - L *m H)^T + L *m Rk *m L^T).
Proof.
  case: update_inv => U _ -> HP HR. rewrite -/(joseph P H Rk L) (joseph_optimal U _ _ L); [|by case: HP|by case: HR].
  apply: loewner_add. apply: psd_congr. apply: psdD => //. exact: psd_congr.
Qed.
Lemma update_shrinks : psd P -> psd Rk -> loewner P' P.
Proof.
  move=> HP HR. have := update_optimal 0 HP HR. by rewrite !mul0mx subr0 trmx1 mulmx1 mul1mx addr0.
Qed.
End Update.

(** The reported covariance is the covariance of the actual error, whatever the
    prior and noise ensembles, and no other linear estimator does better. *)
Lemma update_actual_error (I J : finType) (p : I -> R) (q : J -> R) n m (x x1 : 'cV[R]_n)
    (X : I -> 'cV[R]_n) (V : J -> 'cV[R]_m) (H : 'M[R]_(m, n)) (P1 : 'M[R]_n) :
  weights p -> weights q -> mean p X = x -> mean q V = 0 -> H *m cov p X *m H^T + cov q V \in unitmx ->
  exists (est : I * J -> 'cV[R]_n) (P' : 'M[R]_n),
    (forall k, filterUpdate (DV x) (DM (cov p X)) (DV (H *m X k.1 + V k.2)) (DM H) (DM (cov q V)) (DV x1) (DM P1)
               = Ret (true, (DV (est k), DM P'))) /\
    mean (pprod p q) (fun k => X k.1 - est k) = 0 /\
    cov (pprod p q) (fun k => X k.1 - est k) = P'.
Proof.
  move=> Wp Wq Mx Mv U. set P := cov p X in U *. set Rk := cov q V in U *.
  set K := gain P H Rk. exists (fun k => x + K *m ((H *m X k.1 + V k.2) - H *m x)), (joseph P H Rk K).
  split; first by move=> k; rewrite update_ok U.
  have E : (fun k : I * J => X k.1 - (x + K *m ((H *m X k.1 + V k.2) - H *m x))) =
           (fun k => (1%:M - K *m H) *m (fun i => X i - x) k.1 + (- K) *m V k.2).
  { apply: FunctionalExtensionality.functional_extensionality => k /=.
    rewrite mulmxBl mul1mx mulNmx !mulmxBr mulmxDr !mulmxA. mx_abel. }
  have Wc : mean p (fun i => X i - x) = 0.
  { rewrite (meanD p X (fun _ => - x)) mean_const // Mx subrr. by []. }
  have Cc : cov p (fun i => X i - x) = P.
  { rewrite /P /cov Wc Mx. by apply: eq_bigr => i _; rewrite subr0. }
  rewrite E. have [-> ->] := cov_indep (1%:M - K *m H) (- K) (fun i => X i - x) V Wp Wq.
  rewrite Wc Mv !mulmx0 addr0 Cc. split=> //. rewrite /joseph. congr (_ + _).
  by rewrite [(- K)^T]linearN /= !mulNmx mulmxN opprK.
Qed.
