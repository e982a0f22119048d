(** Proofs about the filters, part 4: histories of calls, the unscented filter,
    and aliased arguments. *)
From Coq Require Import Reals Lra Permutation Classical_Prop.
From mathcomp Require Import all_ssreflect all_algebra.
From Verif Require Import Base BaseMx ModelEigen ModelKalman SpecKalman SpecFilter ProofMx ProofKalman ProofKalman2 ProofKalman3.
Set Implicit Arguments.
Unset Strict Implicit.
Unset Printing Implicit Defensive.
Import GRing.Theory.
Local Open Scope ring_scope.
Local Open Scope outcome_scope.

(** ** C49 *)
Lemma update_finite_iff n m (x x1 : 'cV[R]_n) (z : 'cV[R]_m) (P P1 : 'M[R]_n) (H : 'M[R]_(m, n)) (Rk : 'M[R]_m) :
  (exists x' P', filterUpdate (DV x) (DM P) (DV z) (DM H) (DM Rk) (DV x1) (DM P1) = Ret (true, (DV (x' : 'cV[R]_n), DM (P' : 'M[R]_n))))
  <-> H *m P *m H^T + Rk \in unitmx.
Proof.
  rewrite update_ok. split; last by move=> ->; do 2 eexists.
  by case: ifP => // _ [? [? ?]].
Qed.
Lemma update_finite n m (x x1 : 'cV[R]_n) (z : 'cV[R]_m) (P P1 : 'M[R]_n) (H : 'M[R]_(m, n)) (Rk : 'M[R]_m) :
  psd P -> pd Rk ->
  exists x' P', filterUpdate (DV x) (DM P) (DV z) (DM H) (DM Rk) (DV x1) (DM P1) = Ret (true, (DV (x' : 'cV[R]_n), DM (P' : 'M[R]_n))).
Proof.
  move=> HP HR. apply/update_finite_iff. apply: pd_unit. apply: psd_pd => //. exact: psd_congr.
Qed.
Lemma update_singular n m (x x1 : 'cV[R]_n) (z : 'cV[R]_m.+1) (P1 : 'M[R]_n) (H : 'M[R]_(m.+1, n)) :
  filterUpdate (DV x) (DM (0 : 'M[R]_n)) (DV z) (DM H) (DM (0 : 'M[R]_m.+1)) (DV x1) (DM P1) = NonFinite.
Proof. by rewrite update_ok mulmx0 mul0mx addr0 unitmxE det0 unitr0. Qed.

(** ** C50 *)
Lemma call_valid n (o : op n) (x : 'cV[R]_n) (P : 'M[R]_n) : valid o -> psd P ->
  exists (x' : 'cV[R]_n) (P' : 'M[R]_n), call o (DV x) (DM P) = Ret (true, (DV x', DM P')) /\ psd P'.
Proof.
  case: o => [Phi Q|m z H Rk] /= V HP.
  - case E : (filterPredict _ _ _ _ _ _) => [[b r]||||]; move: (E); rewrite predict_ok => // F.
    do 2 eexists. split; first by rewrite -E predict_ok; reflexivity.
    exact: (proj1 (predict_psd (predict_ok _ _ _ _ _ _) HP V)).
  - have [x' [P' E]] := update_finite x x z P H HP V. exists x', P'. split=> //.
    exact: (update_psd E HP (pd_psd V)).
Qed.
Lemma run_valid n (h : seq (op n)) : forall (x : 'cV[R]_n) (P : 'M[R]_n), all_valid h -> psd P ->
  exists (x' : 'cV[R]_n) (P' : 'M[R]_n), run h (DV x) (DM P) = Ret (true, (DV x', DM P')) /\ psd P'.
Proof.
  elim: h => [|o h IH] x P /=; first by move=> _ HP; exists x, P.
  move=> [V1 V2] HP. have [x' [P' [E HP']]] := call_valid x V1 HP. rewrite E /=. exact: IH.
Qed.

(** ** C85: better data give a better covariance *)
Lemma update_mono n m (x x1 x' y y1 y' : 'cV[R]_n) (z z2 : 'cV[R]_m) (P P1 P' Pb Pb1 Pb' : 'M[R]_n) (H : 'M[R]_(m, n)) (Rk Rb : 'M[R]_m) :
  psd P -> psd Rk -> loewner P Pb -> loewner Rk Rb ->
  filterUpdate (DV x) (DM P) (DV z) (DM H) (DM Rk) (DV x1) (DM P1) = Ret (true, (DV x', DM P')) ->
  filterUpdate (DV y) (DM Pb) (DV z2) (DM H) (DM Rb) (DV y1) (DM Pb1) = Ret (true, (DV y', DM Pb')) ->
  loewner P' Pb'.
Proof.
  move=> HP HR L1 L2 E1 E2. have [_ _ ->] := update_inv E2. move: (gain Pb H Rb) => L.
  apply: loewner_trans (update_optimal E1 L HP HR) _. move=> v. rewrite /joseph !qfD !qf_congr.
  have A1 := L1 ((1%:M - L *m H)^T *m v). have A2 := L2 (L^T *m v). exact: Rplus_le_compat A1 A2.
Qed.
Lemma predict_mono n (x x1 x' y y1 y' : 'cV[R]_n) (P P1 P' Pb Pb1 Pb' Phi Q Qb : 'M[R]_n) :
  loewner P Pb -> loewner Q Qb ->
  filterPredict (DV x) (DM P) (DM Phi) (DM Q) (DV x1) (DM P1) = Ret (true, (DV x', DM P')) ->
  filterPredict (DV y) (DM Pb) (DM Phi) (DM Qb) (DV y1) (DM Pb1) = Ret (true, (DV y', DM Pb')) ->
  loewner P' Pb'.
Proof.
  rewrite !predict_ok => L1 L2 /Ret_inj [_ _ <-] /Ret_inj [_ _ <-] v.
  rewrite !qfD !qf_congr. have A1 := L1 (Phi^T *m v). have A2 := L2 v. exact: Rplus_le_compat A1 A2.
Qed.
Lemma run_mono n (h hb : seq (op n)) : worse h hb ->
  forall (x y x' y' : 'cV[R]_n) (P Pb P' Pb' : 'M[R]_n),
  all_valid h -> all_valid hb -> psd P -> psd Pb -> loewner P Pb ->
  run h (DV x) (DM P) = Ret (true, (DV x', DM P')) -> run hb (DV y) (DM Pb) = Ret (true, (DV y', DM Pb')) ->
  loewner P' Pb'.
Proof.
  elim=> {h hb} [|m z H Rk h hb _ IH|Phi Q Qb h hb L _ IH|m z zb H Rk Rb h hb L _ IH] x y x' y' P Pb P' Pb'.
  - move=> _ _ _ _ L /= /Ret_inj [_ _ <-] /Ret_inj [_ _ <-]. exact: L.
  - move=> [V1 V2] Vb HP HPb L /= E1 E2.
    have [x2 [P2 [E HP2]]] := @call_valid n (Update z H Rk) x P V1 HP. move: E1. rewrite /= in E. rewrite E /= => E1.
    apply: (IH _ _ _ _ _ _ _ _ V2 Vb HP2 HPb _ E1 E2).
    exact: loewner_trans (update_shrinks E HP (pd_psd V1)) L.
  - move=> [V1 V2] [Vb1 Vb2] HP HPb LP E1 E2.
    have [x2 [P2 [F HP2]]] := @call_valid n (Predict Phi Q) x P V1 HP.
    have [y2 [Q2 [G HQ2]]] := @call_valid n (Predict Phi Qb) y Pb Vb1 HPb.
    move: E1 E2. rewrite /= in F G *. rewrite F G /= => E1 E2.
    apply: (IH _ _ _ _ _ _ _ _ V2 Vb2 HP2 HQ2 _ E1 E2). exact: predict_mono LP L F G.
  - move=> [V1 V2] [Vb1 Vb2] HP HPb LP E1 E2.
    have [x2 [P2 [F HP2]]] := @call_valid n (Update z H Rk) x P V1 HP.
    have [y2 [Q2 [G HQ2]]] := @call_valid n (Update zb H Rb) y Pb Vb1 HPb.
    move: E1 E2. rewrite /= in F G *. rewrite F G /= => E1 E2.
    apply: (IH _ _ _ _ _ _ _ _ V2 Vb2 HP2 HQ2 _ E1 E2). exact: update_mono HP (pd_psd V1) LP L F G.
Qed.

(** ** C83: information accumulates *)
Lemma run_info n (h : seq (meas n)) : forall (x x' : 'cV[R]_n) (P P' : 'M[R]_n),
  pd P -> all_valid (map (@to_op n) h) ->
  run (map (@to_op n) h) (DV x) (DM P) = Ret (true, (DV x', DM P')) ->
  [/\ pd P', invmx P' = invmx P + \sum_(m <- h) info_mx m &
      invmx P' *m x' = invmx P *m x + \sum_(m <- h) info_vec m].
Proof.
  elim: h => [|m h IH] x x' P P' HP /=.
  - move=> _ /Ret_inj [_ <- <-]. by rewrite !big_nil !addr0.
  - move=> [V1 V2]. have [x2 [P2 E]] := update_finite x x (mz m) P (mH m) (pd_psd HP) V1. rewrite E /= => F.
    have HP2 := update_psd E (pd_psd HP) (pd_psd V1).
    have [UP2 I1 I2] := update_info (pd_unit HP) (pd_unit V1) E.
    have [D J1 J2] := IH _ _ _ _ (psd_unit_pd HP2 UP2) V2 F.
    split=> //; [by rewrite big_cons J1 I1 addrA|by rewrite big_cons J2 I2 addrA].
Qed.
Lemma run_typed n (h : seq (op n)) (x : 'cV[R]_n) (P : 'M[R]_n) : all_valid h -> psd P ->
  exists x' P', run h (DV x) (DM P) = Ret (true, (DV (x' : 'cV[R]_n), DM (P' : 'M[R]_n))).
Proof. move=> V HP. have [x' [P' [E _]]] := run_valid x V HP. by exists x', P'. Qed.
Lemma all_valid_perm n (h h' : seq (op n)) : Permutation h h' -> all_valid h -> all_valid h'.
Proof. elim=> //= [o a b _ IH [V /IH W]|o o' a [V [W Z]]|a b c _ I1 _ I2 V] //. exact: I2 (I1 V). Qed.
Lemma sum_perm (V : zmodType) T (F : T -> V) (h h' : seq T) : Permutation h h' -> \sum_(m <- h) F m = \sum_(m <- h') F m.
Proof. 
  elim=> [//|o a b _ IH|o o' a|a b c _ -> _ ->//]; rewrite !big_cons; first by rewrite IH.
  by rewrite !addrA [F o' + F o]addrC.
Qed.
Lemma run_perm n (h h' : seq (meas n)) (x : 'cV[R]_n) (P : 'M[R]_n) :
  Permutation h h' -> pd P -> all_valid (map (@to_op n) h) ->
  run (map (@to_op n) h) (DV x) (DM P) = run (map (@to_op n) h') (DV x) (DM P).
Proof.
  move=> Pm HP V. have V' : all_valid (map (@to_op n) h').
  { apply: all_valid_perm V. exact: Permutation_map. }
  have [x1 [P1 E1]] := run_typed x V (pd_psd HP). have [x2 [P2 E2]] := run_typed x V' (pd_psd HP).
  have [D1 I1 J1] := run_info HP V E1. have [D2 I2 J2] := run_info HP V' E2.
  rewrite E1 E2.
  have EI : invmx P1 = invmx P2 by rewrite I1 I2 (sum_perm (@info_mx n) Pm).
  have EP : P1 = P2 by rewrite -[P1]invmxK EI invmxK.
  have U2 : invmx P2 \in unitmx by rewrite unitmx_inv pd_unit.
  have Ex : x1 = x2.
  { apply: (can_inj (mulKmx U2)). by rewrite -{1}EI J1 J2 (sum_perm (@info_vec n) Pm). }
  by rewrite Ex EP.
Qed.

(** ** C86: consistency *)
Lemma mean_shift (I : finType) n (p : I -> R) (X : I -> 'cV[R]_n) (c : 'cV[R]_n) :
  weights p -> mean p (fun i => X i - c) = mean p X - c.
Proof. move=> W. by rewrite (meanD p X (fun _ => - c)) mean_const. Qed.
Lemma weights_prod (I J : finType) (p : I -> R) (q : J -> R) : weights p -> weights q -> weights (pprod p q).
Proof.
  move=> Wp Wq. rewrite /weights /pprod -(pair_bigA _ (fun i j => p i * q j)) /=.
  rewrite -[RHS]Wp. apply: eq_bigr => i _. by rewrite -mulr_sumr Wq mulr1.
Qed.
Lemma R1_neq_0 : (0 : R) <> 1.
Proof. move=> E. exact: R1_neq_R0 (esym E). Qed.
Lemma weights_inhab (I : finType) (p : I -> R) : weights p -> exists i : I, True.
Proof.
  move=> W. case: (pickP (fun _ : I => true)) => [i _|N]; first by exists i.
  move: W. rewrite /weights big_pred0 // => E. by case: (R1_neq_0 E).
Qed.
Lemma sim_consistent n (h : seq (event n)) e P e' P' : sim h e P e' P' -> consistent e P -> consistent e' P'.
Proof.
  elim=> {h e P e' P'} [//|I p t s P J q V Phi s' P' h e'' P'' Wq Mq E _ IH|I p t s P J q m V H s' P' h e'' P'' Wq Mq E _ IH] [/= Wp Mp Cp]; apply: IH;
  have [k0 _] := weights_inhab (weights_prod Wp Wq); set X := fun i => t i - s i in Mp Cp *.
  - have Es k : s' k = Phi *m s k.1 by have := E k; rewrite predict_ok => /Ret_inj [_ <- _].
    have EP : P' = Phi *m P *m Phi^T + cov q V by have := E k0; rewrite predict_ok => /Ret_inj [_ _ <-].
    have [M C] := cov_indep Phi 1%:M X V Wp Wq.
    have F : (fun k : I * J => Phi *m t k.1 + V k.2 - s' k) = (fun k => Phi *m X k.1 + 1%:M *m V k.2).
    { apply: FunctionalExtensionality.functional_extensionality => k. rewrite Es mul1mx /X mulmxBr. mx_abel. }
    split; [exact: weights_prod|by rewrite /= F M Mp Mq !mulmx0 addr0|].
    by rewrite /= F C Cp trmx1 mulmx1 mul1mx EP.
  - set K := gain P H (cov q V).
    have Es k : s' k = s k.1 + K *m (H *m t k.1 + V k.2 - H *m s k.1) by have [] := update_inv (E k).
    have EP : P' = joseph P H (cov q V) K by have [] := update_inv (E k0).
    have [M C] := cov_indep (1%:M - K *m H) (- K) X V Wp Wq. move: K Es EP M C => K Es EP M C.
    have F : (fun k : I * J => t k.1 - s' k) = (fun k => (1%:M - K *m H) *m X k.1 + (- K) *m V k.2).
    { apply: FunctionalExtensionality.functional_extensionality => k. rewrite Es /X.
      rewrite mulmxBl mul1mx mulNmx !mulmxBr mulmxDr !mulmxA. mx_abel. }
    split; [exact: weights_prod|by rewrite /= F M Mp Mq !mulmx0 addr0|].
    rewrite /= F C Cp EP /joseph. congr (_ + _).
    by rewrite [(- K)^T]linearN /= !mulNmx mulmxN opprK.
Qed.
Lemma cov_psd (I : finType) n (p : I -> R) (X : I -> 'cV[R]_n) : (forall i, Rle 0 (p i)) -> psd (cov p X).
Proof. move=> H. apply: psd_sum => i. apply: psdZ; [exact: H|exact: psd_outer]. Qed.
Lemma sim_exists n (h : seq (event n)) : forall e P, good_events h -> psd P -> consistent e P ->
  exists e' P', sim h e P e' P' /\ psd P' /\ consistent e' P'.
Proof.
  elim: h => [|v h IH] [I p t s] P /=; first by move=> _ HP C; exists (Ens p t s), P; split=> //; exact: sim_nil.
  case: v => [J q V Phi|J q m V H] /= [G1 G2] HP C.
  - case: G1 => Wq Mq Nq. set P' := Phi *m P *m Phi^T + cov q V.
    set s' := fun k : I * J => Phi *m s k.1.
    have E k : filterPredict (DV (s k.1)) (DM P) (DM Phi) (DM (cov q V)) (DV (s k.1)) (DM P) = Ret (true, (DV (s' k), DM P')).
    { by rewrite predict_ok. }
    have HP' : psd P' by apply: psdD; [exact: psd_congr|exact: cov_psd].
    have C' : consistent (Ens (pprod p q) (fun k => Phi *m t k.1 + V k.2) s') P'.
    { apply: (sim_consistent _ C). apply: (sim_move Wq Mq E). exact: sim_nil. }
    have [e' [P2 [S2 R2]]] := IH _ _ G2 HP' C'. exists e', P2. split=> //. exact: (sim_move Wq Mq E).
  - case: G1 => Wq Mq Nq Dq.
    have U : H *m P *m H^T + cov q V \in unitmx by apply: pd_unit; apply: psd_pd => //; exact: psd_congr.
    set P' := joseph P H (cov q V) (gain P H (cov q V)).
    set s' := fun k : I * J => s k.1 + gain P H (cov q V) *m (H *m t k.1 + V k.2 - H *m s k.1).
    have E k : filterUpdate (DV (s k.1)) (DM P) (DV (H *m t k.1 + V k.2)) (DM H) (DM (cov q V)) (DV (s k.1)) (DM P) = Ret (true, (DV (s' k), DM P')).
    { by rewrite update_ok U. }
    have HP' : psd P' by apply: psdD; apply: psd_congr => //; exact: cov_psd.
    have C' : consistent (Ens (pprod p q) (fun k => t k.1) s') P'.
    { apply: (sim_consistent _ C). apply: (sim_measure Wq Mq E). exact: sim_nil. }
    have [e' [P2 [S2 R2]]] := IH _ _ G2 HP' C'. exists e', P2. split=> //. exact: (sim_measure Wq Mq E).
Qed.

(** ** C54: noise-free measurements *)
Lemma update_exact n m (x x1 x' : 'cV[R]_n) (z : 'cV[R]_m) (P P1 P' : 'M[R]_n) (H : 'M[R]_(m, n)) :
  filterUpdate (DV x) (DM P) (DV z) (DM H) (DM (0 : 'M[R]_m)) (DV x1) (DM P1) = Ret (true, (DV x', DM P')) ->
  H *m x' = z /\ H *m P' = 0.
Proof.
  case/update_inv => U -> ->. have E : H *m gain P H 0 = 1%:M.
  { rewrite /gain !mulmxA. move: U. rewrite addr0. exact: mulmxV. }
  split; first by rewrite mulmxDr mulmxA E mul1mx addrC subrK.
  by rewrite joseph_gain' // mulmxA mulmxBr mulmx1 mulmxA E mul1mx subrr mul0mx.
Qed.

(** ** C51: unscented prediction *)
Definition colw k (W : 'cV[R]_k) : 'I_k -> R := fun i => W i 0.
Lemma ukf_predict_mean n (W : 'cV[R]_(2 * n + 1)) (y : 'M[R]_(n, 2 * n + 1)) (Q P1 : 'M[R]_n) (x1 : 'cV[R]_n) :
  filterUkfPredict (DV W) (DM y) (DM Q) (DV x1) (DM P1) =
  Ret (true, (DV (mean (fun i => W i 0) (fun i => col i y)), DM (Q + cov (fun i => W i 0) (fun i => col i y)))).
Proof. exact: ukfPredict_ok. Qed.
Lemma cov_sym (I : finType) n (p : I -> R) (X : I -> 'cV[R]_n) : symmetric (cov p X).
Proof. rewrite /symmetric /cov trmx_sum. apply: eq_bigr => i _. by rewrite linearZ /= trmx_mul trmxK. Qed.
Lemma ukf_predict_sym n (W : 'cV[R]_(2 * n + 1)) (y : 'M[R]_(n, 2 * n + 1)) (Q P1 P' : 'M[R]_n) (x1 x' : 'cV[R]_n) :
  filterUkfPredict (DV W) (DM y) (DM Q) (DV x1) (DM P1) = Ret (true, (DV x', DM P')) ->
  (symmetric Q -> symmetric P') /\ ((forall i, Rle 0 (W i 0)) -> psd Q -> psd P' /\ loewner Q P').
Proof.
  rewrite ukf_predict_mean => /Ret_inj [_ _ <-]. split.
  - move=> S. by rewrite /symmetric [LHS]linearD /= S cov_sym.
  - move=> N HQ. have C := cov_psd (fun i => col i y) N. split; [exact: psdD|exact: loewner_add].
Qed.

(** ** C52: unscented update *)
Lemma col_mul n m k (A : 'M[R]_(m, n)) (B : 'M[R]_(n, k)) i : col i (A *m B) = A *m col i B.
Proof. by rewrite !colE mulmxA. Qed.
Lemma ukf_update_linear n m (x x1 : 'cV[R]_n) (P P1 : 'M[R]_n) (y : 'M[R]_(n, 2 * n + 1)) (W : 'cV[R]_(2 * n + 1))
    (H : 'M[R]_(m, n)) (z : 'cV[R]_m) (Rk : 'M[R]_m) :
  mean (fun i => W i 0) (fun i => col i y) = x -> cov (fun i => W i 0) (fun i => col i y) = P -> symmetric Rk ->
  filterUkfUpdate (DV x) (DM P) (DM y) (DV W) (DM (H *m y)) (DV z) (DM Rk) (DV x1) (DM P1) =
  filterUpdate (DV x) (DM P) (DV z) (DM H) (DM Rk) (DV x1) (DM P1).
Proof.
  move=> Mx Cx SR. have := @ukfUpdate_ok n m x x1 P P1 y W (H *m y) z Rk. cbv zeta. move=> ->. rewrite update_ok.
  have Ez : wmean W (H *m y) = H *m x.
  { rewrite -Mx /wmean /mean mulmx_sumr. apply: eq_bigr => i _. by rewrite -scalemxAr col_mul. }
  have EC : wscat W y x (H *m y) (H *m x) = P *m H^T.
  { rewrite -Cx /cov Mx mulmx_suml. apply: eq_bigr => i _. by rewrite col_mul -mulmxBr trmx_mul -scalemxAl mulmxA. }
  have ES : wscat W (H *m y) (H *m x) (H *m y) (H *m x) = H *m P *m H^T.
  { rewrite -mulmxA -EC mulmx_sumr. apply: eq_bigr => i _. by rewrite col_mul -mulmxBr -scalemxAr mulmxA. }
  have SP : symmetric P by rewrite -Cx; exact: cov_sym.
  rewrite Ez EC ES [Rk + _]addrC. case: ifP => // U. rewrite -/(gain P H Rk). apply: RetE => //.
  rewrite joseph_gain //. have E := HP_gain U SP SR. move: (gain P H Rk) E => K E.
  by rewrite -[K *m _ *m K^T]mulmxA -E mulmxA.
Qed.
Section UkfPsd.
Variables (n m k : nat) (x : 'cV[R]_n) (y : 'M[R]_(n, k)) (W : 'cV[R]_k) (zi : 'M[R]_(m, k)) (zh : 'cV[R]_m) (Rk : 'M[R]_m).
Let S := Rk + wscat W zi zh zi zh.
Lemma scat_split (K : 'M[R]_(n, m)) : wscat W y x zi zh = K *m S -> symmetric S ->
  wscat W y x y x - K *m S *m K^T =
  \sum_i W i 0 *: ((col i y - x - K *m (col i zi - zh)) *m (col i y - x - K *m (col i zi - zh))^T) + K *m Rk *m K^T.
Proof.
  move=> E SS. set T := wscat W y x zi zh in E.
  have -> : \sum_i W i 0 *: ((col i y - x - K *m (col i zi - zh)) *m (col i y - x - K *m (col i zi - zh))^T) =
    wscat W y x y x - T *m K^T - K *m T^T + K *m wscat W zi zh zi zh *m K^T.
  { rewrite /T /wscat trmx_sum !mulmx_sumr !mulmx_suml -!sumrB -big_split /=. apply: eq_bigr => i _.
    move: (col i y - x) (col i zi - zh) (W i 0) => a b w.
    have -> : (w *: (a *m b^T))^T = w *: (b *m a^T) by rewrite linearZ /= trmx_mul trmxK.
    rewrite -!scalemxAr -!scalemxAl -!scalerBr -scalerDr. congr (_ *: _).
    rewrite [(a - K *m b)^T]linearB /= trmx_mul mulmxBr !mulmxBl !mulmxA. mx_abel. }
  have ET : K *m T^T = K *m S *m K^T by rewrite E trmx_mul SS mulmxA.
  rewrite ET E /S mulmxDr mulmxDl. mx_abel.
Qed.
End UkfPsd.
Lemma loewner_sub_psd n (A B : 'M[R]_n) : symmetric A -> symmetric B -> loewner A B -> psd (B - A).
Proof.
  move=> SA SB L. split; first by rewrite /symmetric [LHS]linearB /= SA SB.
  move=> v. rewrite qfB. have := L v. lra.
Qed.
(** Scatter of the sigma points about the given state. *)
Definition scatter n k (W : 'cV[R]_k) (y : 'M[R]_(n, k)) (x : 'cV[R]_n) : 'M[R]_n :=
  \sum_i W i 0 *: ((col i y - x) *m (col i y - x)^T).
Lemma wscat_psd n k (W : 'cV[R]_k) (y : 'M[R]_(n, k)) (x : 'cV[R]_n) : (forall i, Rle 0 (W i 0)) -> psd (wscat W y x y x).
Proof. move=> N. apply: psd_sum => i. apply: psdZ; [exact: N|exact: psd_outer]. Qed.

Lemma ukf_update_psd n m (x x1 x' : 'cV[R]_n) (P P1 P' : 'M[R]_n) (y : 'M[R]_(n, 2 * n + 1)) (W : 'cV[R]_(2 * n + 1))
    (zi : 'M[R]_(m, 2 * n + 1)) (z : 'cV[R]_m) (Rk : 'M[R]_m) :
  (forall i, Rle 0 (W i 0)) -> psd Rk -> symmetric P ->
  loewner (\sum_i W i 0 *: ((col i y - x) *m (col i y - x)^T)) P ->
  filterUkfUpdate (DV x) (DM P) (DM y) (DV W) (DM zi) (DV z) (DM Rk) (DV x1) (DM P1) = Ret (true, (DV x', DM P')) ->
  psd P' /\ loewner P' P.
Proof.
  move=> N HR SP L. have := @ukfUpdate_ok n m x x1 P P1 y W zi z Rk. cbv zeta. move=> ->.
  set zh := wmean W zi. set S := Rk + wscat W zi zh zi zh. case: ifP => // U /Ret_inj [_ _ <-].
  have HS : psd S by apply: psdD => //; exact: wscat_psd.
  set K := wscat W y x zi zh *m invmx S.
  have EK : wscat W y x zi zh = K *m S by rewrite /K mulmxKV.
  have := scat_split EK (proj1 HS). move: K EK => K EK Sp.
  have HA := wscat_psd y x N. set A := wscat W y x y x in Sp HA.
  have HB : psd (A - K *m S *m K^T).
  { rewrite Sp. apply: psdD; last exact: psd_congr. apply: psd_sum => i. apply: psdZ; [exact: N|exact: psd_outer]. }
  have HKS := psd_congr K HS.
  split.
  - have -> : P - K *m S *m K^T = (P - A) + (A - K *m S *m K^T) by rewrite addrA subrK.
    apply: psdD => //. apply: loewner_sub_psd => //. by case: HA.
  - have E : P - K *m S *m K^T + K *m S *m K^T = P by rewrite subrK.
    rewrite -[X in loewner _ X]E. exact: loewner_add.
Qed.
Lemma ukf_update_finite n m (x x1 : 'cV[R]_n) (P P1 : 'M[R]_n) (y : 'M[R]_(n, 2 * n + 1)) (W : 'cV[R]_(2 * n + 1))
    (zi : 'M[R]_(m, 2 * n + 1)) (z : 'cV[R]_m) (Rk : 'M[R]_m) :
  (forall i, Rle 0 (W i 0)) -> pd Rk ->
  exists x' P', filterUkfUpdate (DV x) (DM P) (DM y) (DV W) (DM zi) (DV z) (DM Rk) (DV x1) (DM P1) =
    Ret (true, (DV (x' : 'cV[R]_n), DM (P' : 'M[R]_n))).
Proof.
  move=> N HR. have := @ukfUpdate_ok n m x x1 P P1 y W zi z Rk. cbv zeta. move=> ->.
  rewrite pd_unit; first by do 2 eexists. rewrite addrC. apply: psd_pd => //. exact: wscat_psd.
Qed.

(** Sigma points whose weights sum to one, the centre weight being negative. *)
Lemma ukf_indefinite : exists (W : 'cV[R]_(2 * 1 + 1)) (y : 'M[R]_(1, 2 * 1 + 1)) (x' : 'cV[R]_1) (P' : 'M[R]_1),
  \sum_i W i 0 = 1 /\
  filterUkfPredict (DV W) (DM y) (DM (0 : 'M[R]_1)) (DV (0 : 'cV[R]_1)) (DM (0 : 'M[R]_1)) = Ret (true, (DV x', DM P')) /\
  ~ psd P'.
Proof.
  pose W : 'cV[R]_(2 * 1 + 1) := \col_i (if (i : nat) == 0%N then -1 else 1).
  pose y : 'M[R]_(1, 2 * 1 + 1) := \matrix_(i, j) (if (j : nat) == 0%N then 1 else 0).
  exists W, y. do 2 eexists. split; last split.
  - rewrite /W. rewrite big_ord_recl big_ord_recl big_ord_recl big_ord0 !mxE /=. toR. ring.
  - exact: ukf_predict_mean.
  - move=> [_ N]. have := N 1%:M. rewrite add0r /qf trmx1 mul1mx mulmx1 /cov /mean.
    rewrite !big_ord_recl !big_ord0 !mxE /= !big_ord1 !mxE /=. toR. lra.
Qed.

(** ** C53: aliased arguments *)
Lemma ukfPredict_rejects_at Wi yi Qk x1 P1 s :
  ~ ukf_predict_sizes (vecs s Wi) (mats s yi) (mats s Qk) (vecs s x1) (mats s P1) ->
  filterUkfPredict_at Wi yi Qk x1 P1 s = Ret (false, s).
Proof. move=> N. rewrite /filterUkfPredict_at /=. do 4 guard_case. guard_end N. Qed.
Lemma ukfPredict_alias Wi yi Qk x1 P1 s :
  filterUkfPredict_at Wi yi Qk x1 P1 s =
  write s x1 P1 (filterUkfPredict (vecs s Wi) (mats s yi) (mats s Qk) (vecs s x1) (mats s P1)).
Proof.
  case: (Classical_Prop.classic (ukf_predict_sizes (vecs s Wi) (mats s yi) (mats s Qk) (vecs s x1) (mats s P1))) => [|N].
  - move Ex : (vecs s x1) => v. case: v Ex => n x Ex. case=> HP [HW [Hy HQ]].
    case: (size_mx HP) => P EP. case: (size_cv HW) => W EW.
    case: (size_mx Hy) => y Ey. case: (size_mx HQ) => Q EQ.
    by rewrite (@ukfPredict_at n _ _ _ _ _ s W y Q P x EW Ey EQ Ex EP) EP EW Ey EQ ukfPredict_ok.
  - rewrite ukfPredict_rejects_at // ukf_predict_rejects // /write /=. by rewrite setv_same setm_same.
Qed.
