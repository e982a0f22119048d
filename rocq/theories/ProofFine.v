(** Proofs about fine alignment. *)
From Coq Require Import Reals Lra.
From mathcomp Require Import all_ssreflect all_algebra.
From Verif Require Import Base BaseMx ModelEigen ModelKalman ModelFine SpecKalman SpecFilter SpecFine ProofMx ProofKalman ProofKalman2 ProofKalman3 ProofKalman4.
Set Implicit Arguments.
Unset Strict Implicit.
Unset Printing Implicit Defensive.
Import GRing.Theory.
Local Open Scope ring_scope.
Local Open Scope outcome_scope.

Lemma ord8 (k : 'I_8) m (E : nat_of_ord k = m) : k = inord m.
Proof. apply: val_inj. rewrite /= inordK -E //. Qed.
Lemma sum8 (F : 'I_8 -> R) : \sum_j F j = F aN + (F aE + (F aD + (F bN + (F bE + (F bD + (F vN + F vE)))))).
Proof.
  rewrite !big_ord_recl big_ord0 addr0. rewrite /aN /aE /aD /bN /bE /bD /vN /vE.
  do !congr (_ + _); congr F; by apply: ord8.
Qed.
Lemma ord8_case (P : 'I_8 -> Prop) : P aN -> P aE -> P aD -> P bN -> P bE -> P bD -> P vN -> P vE -> forall i, P i.
Proof.
  move=> H0 H1 H2 H3 H4 H5 H6 H7 [[|[|[|[|[|[|[|[|k]]]]]]]] Hk] //; rewrite (ord8 (k := Ordinal Hk) erefl); assumption.
Qed.
Lemma mx_of_inord r c l i j : (i < r.+1)%N -> (j < c.+1)%N -> mx_of r.+1 c.+1 l (inord i) (inord j) = nth R0 (nth [::] l i) j.
Proof. move=> Hi Hj. by rewrite mxE !inordK. Qed.

Lemma Rdivc_ok x y : y <> R0 -> Rdivc x y = Ret (Rdiv x y).
Proof. by rewrite /Rdivc => H; case: Req_EM_T. Qed.

Lemma eq8 i j : (i < 8)%N -> (j < 8)%N -> (inord i == inord j :> 'I_8) = (i == j).
Proof. move=> Hi Hj. by rewrite -(inj_eq val_inj) /= !inordK. Qed.
(** ** Prediction *)
Lemma phi_ok lat wE g r : cos lat <> R0 -> r <> R0 -> exists Phi, alignmentPhik lat wE g r = Ret Phi /\
  forall x : 'cV[R]_8, is_rate lat wE g r x (Phi *m x).
Proof.
  move=> Hc Hr. eexists. split; first by rewrite /alignmentPhik Rdivc_ok //= Rdivc_ok //= Rdivc_ok //= Rdivc_ok //=.
  move=> x. rewrite /is_rate /st. repeat split; rewrite mxE sum8 /aN /aE /aD /bN /bE /bD /vN /vE !mx_of_inord //=;
   rewrite /tan; toR; field; auto.
Qed.
Lemma phi_bad lat wE g r : cos lat = R0 \/ r = R0 -> alignmentPhik lat wE g r = NonFinite.
Proof.
  rewrite /alignmentPhik /Rdivc. case=> E.
  - by case: (Req_EM_T (cos lat) 0).
  - case: (Req_EM_T (cos lat) 0) => //= _. by case: (Req_EM_T r 0).
Qed.
Lemma phi_inv lat wE g r Phi : alignmentPhik lat wE g r = Ret Phi ->
  [/\ cos lat <> R0, r <> R0 & forall x : 'cV[R]_8, is_rate lat wE g r x (Phi *m x)].
Proof.
  case: (Req_dec (cos lat) 0) => [E|Hc]; first by rewrite phi_bad //; left.
  case: (Req_dec r 0) => [E|Hr]; first by rewrite phi_bad //; right.
  have [Phi' [-> H]] := phi_ok wE g Hc Hr. by move=> [<-].
Qed.
Lemma fpredict_eq lat wE g r (x x1 : 'cV[R]_8) (P P1 : 'M[R]_8) :
  fineAlignmentPredict lat wE g r (DV x) (DM P) (DV x1) (DM P1) =
  (Phi <- alignmentPhik lat wE g r ;; Ret (true, (DV (Phi *m x), DM (Phi *m P *m Phi^T)))).
Proof.
  rewrite /fineAlignmentPredict. cbn [dv_n]. rewrite !wrong_size_ok eqxx. cbn [negb].
  case: alignmentPhik => // Phi. cbn [bind]. rewrite -[zeros 8 8]/(DM (0 : 'M[R]_8)) predict_ok. cbn [bind fst snd negb].
  apply: RetE => //. exact: addr0.
Qed.
Lemma fine_typed xk Pk x1 P1 : fine_sizes xk Pk x1 P1 ->
  exists (x y : 'cV[R]_8) (P Q : 'M[R]_8), [/\ xk = DV x, Pk = DM P, x1 = DV y & P1 = DM Q].
Proof.
  case: xk => n x. case: Pk => a b P. case: x1 => n1 y. case: P1 => a1 b1 Q. rewrite /fine_sizes /=.
  move=> [? [? [? [? [? ?]]]]]. subst. by exists x, y, P, Q.
Qed.
Lemma fine_untyped xk Pk x1 P1 :
  wrong_size Pk (dv_n xk) (dv_n xk) = false -> (dv_n x1 != dv_n xk) = false -> wrong_size P1 (dv_n xk) (dv_n xk) = false ->
  ~ fine_sizes xk Pk x1 P1 -> dv_n xk <> 8%N.
Proof.
  move=> /wrong_sizeP [E1 E2] /negbFE/eqP E3 /wrong_sizeP [E4 E5] N E. apply: N. by rewrite /fine_sizes E1 E2 E3 E4 E5 E.
Qed.
Lemma fpredict_rejects lat wE g r xk Pk x1 P1 : ~ fine_sizes xk Pk x1 P1 ->
  fineAlignmentPredict lat wE g r xk Pk x1 P1 = Ret (false, (x1, P1)).
Proof.
  move=> N. rewrite /fineAlignmentPredict. case E1: (wrong_size Pk) => //. case E2: (_ != _) => //. case E3: (wrong_size P1) => //.
  have D := fine_untyped E1 E2 E3 N. case: eqP => //= _. rewrite predict_rejects //.
  rewrite /predict_sizes /has_size /=. by move=> [_ [[E _] _]]; case: D.
Qed.
Lemma faz_rejects azMeas dtAz azEst sigAz xk Pk x1 P1 : ~ fine_sizes xk Pk x1 P1 ->
  fineAlignmentAzimuthUpdate azMeas dtAz azEst sigAz xk Pk x1 P1 = Ret (false, (x1, P1)).
Proof.
  move=> N. rewrite /fineAlignmentAzimuthUpdate. case E1: (wrong_size Pk) => //. case E2: (_ != _) => //. case E3: (wrong_size P1) => //.
  have D := fine_untyped E1 E2 E3 N. rewrite update_rejects //.
  rewrite /update_sizes /has_size /=. by move=> [_ [[_ E] _]]; case: D.
Qed.
Lemma fvel_rejects v0 v1 dt sig xk Pk x1 P1 : ~ fine_sizes xk Pk x1 P1 ->
  fineAlignmentVelocityUpdate v0 v1 dt sig xk Pk x1 P1 = Ret (false, (x1, P1)).
Proof.
  move=> N. rewrite /fineAlignmentVelocityUpdate. case E1: (wrong_size Pk) => //. case E2: (_ != _) => //. case E3: (wrong_size P1) => //.
  have D := fine_untyped E1 E2 E3 N. rewrite update_rejects //.
  rewrite /update_sizes /has_size /=. by move=> [_ [[_ E] _]]; case: D.
Qed.

(** ** Azimuth *)
Definition Haz : 'M[R]_(1, 8) := delta_mx 0 aD.
Lemma ord1_inord (k : 'I_1) : k = inord 0. Proof. by rewrite [RHS]ord1 ord1. Qed.
Lemma Haz_ok : mx_of 1 8 [:: [:: R0; R0; R1; R0; R0; R0; R0; R0]] = Haz.
Proof.
  apply/matrixP => i. rewrite [i]ord1_inord. apply: ord8_case; by rewrite mx_of_inord // /Haz mxE ord1 /aD eq8.
Qed.
Lemma faz_eq azMeas dtAz azEst sigAz (x x1 : 'cV[R]_8) (P P1 : 'M[R]_8) :
  fineAlignmentAzimuthUpdate azMeas dtAz azEst sigAz (DV x) (DM P) (DV x1) (DM P1) =
  filterUpdate (DV x) (DM P) (DV (const_mx (Rminus azMeas azEst) : 'cV[R]_1)) (DM Haz)
    (DM ((Rmult (Rmult sigAz sigAz) dtAz)%:M : 'M[R]_1)) (DV x1) (DM P1).
Proof.
  rewrite /fineAlignmentAzimuthUpdate. cbn [dv_n]. rewrite !wrong_size_ok eqxx. cbn [negb]. rewrite Haz_ok.
  have -> : mx_of 1 1 [:: [:: Rminus azMeas azEst]] = const_mx (Rminus azMeas azEst) by apply/matrixP => i j; rewrite !ord1 !mxE.
  have -> : mx_of 1 1 [:: [:: Rmult (Rmult sigAz sigAz) dtAz]] = (Rmult (Rmult sigAz sigAz) dtAz)%:M by apply/matrixP => i j; rewrite !ord1 !mxE.
  by case: filterUpdate => // -[[] r].
Qed.
Lemma HazM (P : 'M[R]_8) : Haz *m P = row aD P.
Proof. by rewrite rowE. Qed.
Lemma MHaz (P : 'M[R]_8) : P *m Haz^T = col aD P.
Proof. by rewrite colE /Haz trmx_delta. Qed.
Lemma HazV (x : 'cV[R]_8) : Haz *m x = const_mx (x aD 0).
Proof. by rewrite -rowE; apply/matrixP => i j; rewrite !ord1 !mxE. Qed.
Lemma Saz (P : 'M[R]_8) v : Haz *m P *m Haz^T + (v%:M : 'M[R]_1) = (P aD aD + v)%:M.
Proof.
  rewrite HazM /Haz trmx_delta -colE. apply/matrixP => i j. by rewrite !ord1 !mxE eqxx !mulr1n.
Qed.
Lemma unit_scalar1 (c : R) : ((c%:M : 'M[R]_1) \in unitmx) = (c != 0).
Proof. by rewrite unitmxE det_scalar1 unitfE. Qed.

Lemma divS (s k : R) : s <> R0 -> k = Rdiv (Rmult s k) s.
Proof. move=> H. field. exact: H. Qed.
Lemma divKP (a b c s : R) : s <> R0 -> Rminus c (Rmult (Rdiv a s) b) = Rminus c (Rdiv (Rmult a b) s).
Proof. move=> H. field. exact: H. Qed.

(** The azimuth update, entry by entry. *)
Lemma faz_ok azMeas dtAz azEst sigAz (x x1 : 'cV[R]_8) (P P1 : 'M[R]_8) :
  let v := Rmult (Rmult sigAz sigAz) dtAz in let S := Rplus (P aD aD) v in let z := Rminus azMeas azEst in
  S <> R0 -> P^T = P ->
  exists (x' : 'cV[R]_8) (P' : 'M[R]_8),
    fineAlignmentAzimuthUpdate azMeas dtAz azEst sigAz (DV x) (DM P) (DV x1) (DM P1) = Ret (true, (DV x', DM P')) /\
    (forall i, x' i 0 = Rplus (x i 0) (Rmult (Rdiv (P i aD) S) (Rminus z (x aD 0)))) /\
    (forall i j, P' i j = Rminus (P i j) (Rdiv (Rmult (P i aD) (P j aD)) S)).
Proof.
  move=> v S z HS SP. rewrite faz_eq.
  have U : Haz *m P *m Haz^T + (v%:M : 'M[R]_1) \in unitmx by rewrite Saz unit_scalar1; apply/eqP.
  have E := update_ok x x1 (const_mx z) P P1 Haz (v%:M : 'M[R]_1). rewrite U in E.
  eexists; eexists. split; first exact: E. have [K [EK Ex EP]] := update_short E. rewrite Ex EP.
  have Ki i : K i 0 = Rdiv (P i aD) S.
  { move: EK. rewrite Saz MHaz mul_mx_scalar => /(f_equal (fun M : 'cV[R]_8 => M i 0)). rewrite !mxE. rewrite -/S. toR => <-.
    exact: divS. }
  split=> [i|i j].
  - rewrite HazV mxE. congr (_ + _). rewrite mxE big_ord1 Ki !mxE. by [].
  - rewrite mulmxBl mul1mx -mulmxA HazM. rewrite !mxE big_ord1 Ki !mxE.
    have -> : P j aD = P aD j by rewrite -{1}SP mxE. exact: divKP.
Qed.
Lemma faz_singular azMeas dtAz azEst sigAz (x x1 : 'cV[R]_8) (P P1 : 'M[R]_8) :
  Rplus (P aD aD) (Rmult (Rmult sigAz sigAz) dtAz) = R0 ->
  fineAlignmentAzimuthUpdate azMeas dtAz azEst sigAz (DV x) (DM P) (DV x1) (DM P1) = NonFinite.
Proof. move=> E. rewrite faz_eq update_ok Saz unit_scalar1. toR. by rewrite E eqxx. Qed.

(** ** Velocity *)
Definition Hv : 'M[R]_(2, 8) := \matrix_(i, j) if i == 0 then (j == vN)%:R else (j == vE)%:R.
Lemma Hv_ok : mx_of 2 8 [:: [:: R0; R0; R0; R0; R0; R0; R1; R0]; [:: R0; R0; R0; R0; R0; R0; R0; R1]] = Hv.
Proof.
  apply/matrixP => i j. case: i => [[|[|i]] Hi] //; move: j; apply: ord8_case; rewrite /Hv mxE [RHS]mxE /vN /vE !eq8 // /aN /aE /aD /bN /bE /bD !inordK //.
Qed.
Lemma fvel_eq v0 v1 dt sig (x x1 : 'cV[R]_8) (P P1 : 'M[R]_8) :
  fineAlignmentVelocityUpdate v0 v1 dt sig (DV x) (DM P) (DV x1) (DM P1) =
  filterUpdate (DV x) (DM P) (DV (\matrix_(i, j) (if i == 0 then v0 else v1) : 'cV[R]_2)) (DM Hv)
    (DM ((Rmult (Rmult sig sig) dt)%:M : 'M[R]_2)) (DV x1) (DM P1).
Proof.
  rewrite /fineAlignmentVelocityUpdate. cbn [dv_n]. rewrite !wrong_size_ok eqxx. cbn [negb]. rewrite Hv_ok.
  have -> : mx_of 2 1 [:: [:: v0]; [:: v1]] = \matrix_(i, j) (if i == 0 then v0 else v1).
  { apply/matrixP => i j. rewrite !ord1 !mxE. by case: i => [[|[|i]] Hi]. }
  have -> : mx_of 2 2 [:: [:: Rmult (Rmult sig sig) dt; R0]; [:: R0; Rmult (Rmult sig sig) dt]] = (Rmult (Rmult sig sig) dt)%:M.
  { apply/matrixP => i j. rewrite !mxE. by case: i => [[|[|i]] Hi] //; case: j => [[|[|j]] Hj]. }
  by case: filterUpdate => // -[[] r].
Qed.
Lemma HvM m (P : 'M[R]_(8, m)) i j : (Hv *m P) i j = if i == 0 then P vN j else P vE j.
Proof.
  rewrite mxE (eq_bigr (fun k => if i == 0 then (k == vN)%:R * P k j else (k == vE)%:R * P k j)); last by move=> k _; rewrite mxE; case: (i == 0).
  case: (i == 0).
  - rewrite (bigD1 vN) //= eqxx mul1r big1 ?addr0 // => k /negbTE ->. by rewrite mul0r.
  - rewrite (bigD1 vE) //= eqxx mul1r big1 ?addr0 // => k /negbTE ->. by rewrite mul0r.
Qed.
Lemma MHv m (P : 'M[R]_(m, 8)) i j : (P *m Hv^T) i j = if j == 0 then P i vN else P i vE.
Proof. rewrite -[P]trmxK -trmx_mul mxE HvM !mxE. by []. Qed.
Lemma sum2 (F : 'I_2 -> R) : \sum_j F j = F 0 + F 1.
Proof. by rewrite !big_ord_recl big_ord0 addr0; congr (_ + F _); apply: val_inj. Qed.

Lemma fvel_inv v0 v1 dt sig (x x1 x' : 'cV[R]_8) (P P1 P' : 'M[R]_8) :
  let v := Rmult (Rmult sig sig) dt in
  fineAlignmentVelocityUpdate v0 v1 dt sig (DV x) (DM P) (DV x1) (DM P1) = Ret (true, (DV x', DM P')) ->
  exists k0 k1 : 'I_8 -> R,
    (forall i, Rplus (Rmult (k0 i) (Rplus (P vN vN) v)) (Rmult (k1 i) (P vE vN)) = P i vN /\
               Rplus (Rmult (k0 i) (P vN vE)) (Rmult (k1 i) (Rplus (P vE vE) v)) = P i vE) /\
    (forall i, x' i 0 = Rplus (x i 0) (Rplus (Rmult (k0 i) (Rminus v0 (x vN 0))) (Rmult (k1 i) (Rminus v1 (x vE 0))))) /\
    (forall i j, P' i j = Rminus (P i j) (Rplus (Rmult (k0 i) (P vN j)) (Rmult (k1 i) (P vE j)))).
Proof.
  move=> v. rewrite fvel_eq => E. have [K [EK Ex EP]] := update_short E.
  exists (fun i => K i 0), (fun i => K i 1). split; [|split].
  - move=> i. have EKi j := f_equal (fun M : 'M[R]_(8, 2) => M i j) EK.
    have := EKi 0. have := EKi 1. rewrite !MHv /= ![(K *m _) _ _]mxE !sum2 ![(_ + _%:M) _ _]mxE !MHv !HvM /= ![(_%:M) _ _]mxE /=.
    rewrite !mulr1n !mulr0n !addr0. toR. by move=> -> ->.
  - move=> i. rewrite Ex mxE. congr (_ + _). by rewrite mxE sum2 ![(_ - _ : 'cV[R]_2) _ _]mxE ![(- _ : 'cV[R]_2) _ _]mxE !HvM !mxE.
  - move=> i j. rewrite EP mulmxBl mul1mx -mulmxA. rewrite mxE. congr (_ + _). rewrite mxE. congr (- _). by rewrite mxE sum2 !HvM.
Qed.
Lemma fvel_finite v0 v1 dt sig (x x1 : 'cV[R]_8) (P P1 : 'M[R]_8) : psd P -> Rlt 0 dt -> sig <> R0 ->
  exists (x' : 'cV[R]_8) (P' : 'M[R]_8),
  fineAlignmentVelocityUpdate v0 v1 dt sig (DV x) (DM P) (DV x1) (DM P1) = Ret (true, (DV x', DM P')).
Proof.
  move=> HP Hdt Hs. rewrite fvel_eq. apply: update_finite HP _.
  have Hv : Rlt 0 (Rmult (Rmult sig sig) dt) by apply: Rmult_lt_0_compat => //; exact: Rsqr_pos_lt.
  rewrite -scalemx1. have [S D] := pd1 2. split; first by rewrite /symmetric linearZ /= trmx1.
  move=> u Nu. rewrite /qf -scalemxAr -scalemxAl mxE. exact: Rmult_lt_0_compat (D _ Nu).
Qed.
Lemma scalar_psd m (c : R) : Rle 0 c -> psd (c%:M : 'M[R]_m).
Proof.
  move=> Hc. split; first by rewrite /symmetric tr_scalar_mx.
  move=> u. have -> : qf c%:M u = Rmult c (qf 1%:M u) by rewrite -scalemx1 /qf -scalemxAr -scalemxAl mxE.
  apply: Rmult_le_pos => //. exact: qf_1_ge0.
Qed.
Lemma fvel_psd v0 v1 dt sig (x x1 x' : 'cV[R]_8) (P P1 P' : 'M[R]_8) : psd P -> Rle 0 dt ->
  fineAlignmentVelocityUpdate v0 v1 dt sig (DV x) (DM P) (DV x1) (DM P1) = Ret (true, (DV x', DM P')) -> psd P' /\ loewner P' P.
Proof.
  move=> HP Hdt. rewrite fvel_eq => E.
  have HR : psd ((Rmult (Rmult sig sig) dt)%:M : 'M[R]_2) by apply: scalar_psd; apply: Rmult_le_pos => //; exact: Rle_0_sqr.
  split; [exact: update_psd E HP HR|exact: update_shrinks E HP HR].
Qed.
Lemma faz_psd azMeas dtAz azEst sigAz (x x1 x' : 'cV[R]_8) (P P1 P' : 'M[R]_8) : psd P -> Rle 0 dtAz ->
  fineAlignmentAzimuthUpdate azMeas dtAz azEst sigAz (DV x) (DM P) (DV x1) (DM P1) = Ret (true, (DV x', DM P')) -> psd P' /\ loewner P' P.
Proof.
  move=> HP Hdt. rewrite faz_eq => E.
  have HR : psd ((Rmult (Rmult sigAz sigAz) dtAz)%:M : 'M[R]_1) by apply: scalar_psd; apply: Rmult_le_pos => //; exact: Rle_0_sqr.
  split; [exact: update_psd E HP HR|exact: update_shrinks E HP HR].
Qed.
Lemma fvel_exact v0 v1 dt sig (x x1 x' : 'cV[R]_8) (P P1 P' : 'M[R]_8) : Rmult (Rmult sig sig) dt = R0 ->
  fineAlignmentVelocityUpdate v0 v1 dt sig (DV x) (DM P) (DV x1) (DM P1) = Ret (true, (DV x', DM P')) ->
  x' vN 0 = v0 /\ x' vE 0 = v1 /\ forall j, P' vN j = R0 /\ P' vE j = R0.
Proof.
  move=> E0. rewrite fvel_eq E0. have -> : (R0%:M : 'M[R]_2) = 0 by apply/matrixP => i j; rewrite !mxE mul0rn.
  case/update_exact => Ex EP. have Exi i := f_equal (fun M : 'cV[R]_2 => M i 0) Ex.
  have := Exi 0. have := Exi 1. rewrite !HvM !mxE /= => -> ->. split=> //. split=> // j.
  have EPi i := f_equal (fun M : 'M[R]_(2, 8) => M i j) EP. have := EPi 0. have := EPi 1. by rewrite !HvM !mxE /=.
Qed.

(** ** Biases *)
Definition clean (i : 'I_8) (x : 'cV[R]_8) (P : 'M[R]_8) : Prop := st x i = R0 /\ forall j, P i j = R0 /\ P j i = R0.
Lemma rate_bias lat wE g r x d i : is_rate lat wE g r x d -> is_bias i -> st d i = R0.
Proof. by move=> [_ [_ [_ [E1 [E2 [E3 _]]]]]] [->|[->|->]]. Qed.
Lemma phi_clean lat wE g r (Phi : 'M[R]_8) (x : 'cV[R]_8) (P : 'M[R]_8) i :
  (forall x : 'cV[R]_8, is_rate lat wE g r x (Phi *m x)) -> is_bias i -> clean i (Phi *m x) (Phi *m P *m Phi^T).
Proof.
  move=> HPhi Hi. have Z (y : 'cV[R]_8) : (Phi *m y) i 0 = R0 by exact: (rate_bias (HPhi y) Hi).
  have Z' j : Phi i j = R0.
  { have := Z (delta_mx j 0). by rewrite -colE mxE. }
  split; first exact: Z. move=> j. split.
  - rewrite -mulmxA mxE big1 // => k _. by rewrite Z' mul0r.
  - rewrite mxE big1 // => k _. by rewrite [Phi^T _ _]mxE Z' mulr0.
Qed.
Lemma update_clean m (x x1 x' : 'cV[R]_8) (z : 'cV[R]_m) (P P1 P' : 'M[R]_8) (H : 'M[R]_(m, 8)) (Rk : 'M[R]_m) i :
  filterUpdate (DV x) (DM P) (DV z) (DM H) (DM Rk) (DV x1) (DM P1) = Ret (true, (DV x', DM P')) -> clean i x P -> clean i x' P'.
Proof.
  move=> E [Cx CP]. have [K [EK Ex EP]] := update_short E.
  have U : H *m P *m H^T + Rk \in unitmx by move: E; rewrite update_ok; case: (_ \in _).
  have K0 j : K i j = R0.
  { have -> : K = P *m H^T *m invmx (H *m P *m H^T + Rk) by rewrite -EK mulmxK.
    rewrite -mulmxA mxE big1 // => k _. by rewrite (CP k).1 mul0r. }
  rewrite Ex EP. split.
  - rewrite /st mxE [x i 0]Cx mxE big1 ?addr0 // => k _. by rewrite K0 mul0r.
  - move=> j. split.
    + rewrite mulmxBl mul1mx -mulmxA !mxE (CP j).1 big1 ?subr0 // => k _. by rewrite K0 mul0r.
    + rewrite mxE big1 // => k _. by rewrite (CP k).2 mulr0.
Qed.
(** Every call on 8 states that returns keeps the sizes. *)
Lemma fstep_typed c (x : 'cV[R]_8) (P : 'M[R]_8) r : fstep c (DV x) (DM P) = Ret r ->
  exists (x' : 'cV[R]_8) (P' : 'M[R]_8), r = (true, (DV x', DM P')).
Proof.
  case: c => [lat wE g rr|a b c d|a b c d] /=.
  - rewrite fpredict_eq. case: alignmentPhik => //= Phi [<-]. by eexists; eexists.
  - rewrite faz_eq update_ok. case: (_ \in _) => // -[<-]. by eexists; eexists.
  - rewrite fvel_eq update_ok. case: (_ \in _) => // -[<-]. by eexists; eexists.
Qed.
Lemma fstep_keeps c (x x' : 'cV[R]_8) (P P' : 'M[R]_8) i : is_bias i ->
  fstep c (DV x) (DM P) = Ret (true, (DV x', DM P')) -> is_predict c \/ clean i x P -> clean i x' P'.
Proof.
  move=> Hi. case: c => [lat wE g rr|a b c d|a b c d] /=.
  - rewrite fpredict_eq. case EPhi: alignmentPhik => [Phi| | | |] //= E _. have [_ _ HPhi] := phi_inv EPhi.
    have [_ <- <-] := Ret_inj E. exact: phi_clean HPhi Hi.
  - rewrite faz_eq => E [//|C]. exact: update_clean E C.
  - rewrite fvel_eq => E [//|C]. exact: update_clean E C.
Qed.
Lemma frun_keeps h (x : 'cV[R]_8) (P : 'M[R]_8) i y Q : is_bias i -> has is_predict h \/ clean i x P ->
  frun h (DV x) (DM P) = Ret (y, Q) -> exists (x' : 'cV[R]_8) (P' : 'M[R]_8), [/\ y = DV x', Q = DM P' & clean i x' P'].
Proof.
  move=> Hi. elim: h x P => [|c h IH] x P /=; first by case=> // C [<- <-]; exists x, P.
  move=> HC. case E: (fstep c _ _) => [r| | | |] //=. have [x1 [P1 Er]] := fstep_typed E. rewrite Er /=. apply: IH.
  rewrite Er in E. case: HC => [/orP [Hp|Hh]|C]; first by right; apply: (fstep_keeps Hi E); left.
  - by left.
  - right. apply: (fstep_keeps Hi E). by right.
Qed.
Lemma fvel_perfect_finite v0 v1 sig (x x1 : 'cV[R]_8) (P P1 : 'M[R]_8) : pd P ->
  exists (x' : 'cV[R]_8) (P' : 'M[R]_8),
  fineAlignmentVelocityUpdate v0 v1 0 sig (DV x) (DM P) (DV x1) (DM P1) = Ret (true, (DV x', DM P')).
Proof.
  move=> HP. rewrite fvel_eq update_ok.
  have -> : Rmult (Rmult sig sig) 0 = R0 by rewrite Rmult_0_r.
  have -> : (R0%:M : 'M[R]_2) = 0 by apply/matrixP => i j; rewrite !mxE mul0rn.
  rewrite addr0. have U : Hv *m P *m Hv^T \in unitmx.
  { apply: pd_unit. split; first by rewrite /symmetric !trmx_mul trmxK mulmxA (proj1 HP).
    move=> u Nu. have -> : qf (Hv *m P *m Hv^T) u = qf P (Hv^T *m u) by rewrite /qf trmx_mul trmxK !mulmxA.
    apply: (proj2 HP). apply: contraNneq Nu => E. apply/eqP.
    have -> : u = Hv *m (Hv^T *m u).
    { rewrite mulmxA. suff -> : Hv *m Hv^T = 1%:M by rewrite mul1mx.
      apply/matrixP => i j. rewrite MHv !mxE. by case: i => [[|[|i]] Hi] //; case: j => [[|[|j]] Hj] //=; rewrite /vN /vE ?eqxx ?eq8. }
    by rewrite E mulmx0. }
  rewrite U. by eexists; eexists.
Qed.
