(** Proofs about the filters, part 6: geometric forgetting and the steady
    state. *)
From Coq Require Import Reals Lra.
From mathcomp Require Import all_ssreflect all_algebra.
From Verif Require Import Base BaseMx ModelEigen ModelKalman SpecKalman SpecFilter SpecSteady ProofMx ProofKalman ProofKalman2 ProofKalman3 ProofKalman4 ProofKalman5.
Set Implicit Arguments.
Unset Strict Implicit.
Unset Printing Implicit Defensive.
Import GRing.Theory.
Local Open Scope ring_scope.
Local Open Scope outcome_scope.

(** ** Plain inequalities *)
Lemma ratio_r (a d p q s : R) : Rle 0 a -> Rle 0 d -> Rle (Rmult d p) q -> Rle s (Rmult (Rplus 1 a) p) ->
  Rle (Rplus s q) (Rmult (Rplus 1 (Rdiv a (Rplus 1 d))) (Rplus p q)).
Proof.
  move=> A D PQ S.
  have -> : Rmult (Rplus 1 (Rdiv a (Rplus 1 d))) (Rplus p q) = Rplus (Rplus (Rmult (Rplus 1 a) p) q) (Rmult (Rdiv a (Rplus 1 d)) (Rminus q (Rmult d p))).
  { field. lra. }
  have : Rle 0 (Rmult (Rdiv a (Rplus 1 d)) (Rminus q (Rmult d p))).
  { apply: Rmult_le_pos; last lra. apply: Rmult_le_pos => //. left. apply: Rinv_0_lt_compat. lra. }
  lra.
Qed.
Lemma within_r (c d p q s : R) : Rle 0 c -> Rle 0 d -> Rle (Rmult d p) q -> Rle s (Rmult c p) ->
  Rle s (Rmult (Rdiv c (Rplus 1 d)) (Rplus p q)).
Proof.
  move=> C D PQ S.
  have -> : Rmult (Rdiv c (Rplus 1 d)) (Rplus p q) = Rplus (Rmult c p) (Rmult (Rdiv c (Rplus 1 d)) (Rminus q (Rmult d p))).
  { field. lra. }
  have : Rle 0 (Rmult (Rdiv c (Rplus 1 d)) (Rminus q (Rmult d p))).
  { apply: Rmult_le_pos; last lra. apply: Rmult_le_pos => //. left. apply: Rinv_0_lt_compat. lra. }
  lra.
Qed.
Lemma div_pos (a d : R) : Rle 0 a -> Rle 0 d -> Rle 0 (Rdiv a (Rplus 1 d)).
Proof. move=> A D. apply: Rmult_le_pos => //. left. apply: Rinv_0_lt_compat. lra. Qed.
Lemma div_pow (a d : R) k : Rle 0 d -> Rdiv (Rdiv a (Rplus 1 d)) (pow (Rplus 1 d) k) = Rdiv a (pow (Rplus 1 d) k.+1).
Proof. move=> D. have := pow_lt (Rplus 1 d) k. move=> P. rewrite /=. field. split; [have := P; lra|lra]. Qed.

(** ** One call *)
Lemma call_forgets n (o : op n) d c (x y x' y' : 'cV[R]_n) (P P' P'' : 'M[R]_n) :
  Rle 0 c -> Rle 0 d -> valid o -> (if o is Predict Phi Q then loewner (d *: (Phi *m P *m Phi^T)) Q else True) -> within c P (x - y) ->
  call o (DV x) (DM P) = Ret (true, (DV x', DM P')) -> call o (DV y) (DM P) = Ret (true, (DV y', DM P'')) ->
  P'' = P' /\ within (if is_predict o then Rdiv c (Rplus 1 d) else c) P' (x' - y').
Proof.
  case: o => [Phi Q|m z H Rk] /= C D V X W; last by move=> E1 E2; exact: update_within C (pd_psd V) W E1 E2.
  rewrite !predict_ok => /Ret_inj [_ <- <-] /Ret_inj [_ <- <-]. split=> //. rewrite -mulmxBr => v.
  rewrite qfD. have -> : (v^T *m (Phi *m (x - y))) 0 0 = ((Phi^T *m v)^T *m (x - y)) 0 0 by rewrite trmx_mul trmxK mulmxA.
  have B := W (Phi^T *m v). rewrite -qf_congr in B. have := X v. rewrite qfZ => Xv. exact: within_r.
Qed.
Lemma run_forgets n (h : seq (op n)) d : Rle 0 d -> forall c (x y x' y' : 'cV[R]_n) (P P' P'' : 'M[R]_n),
  Rle 0 c -> all_valid h -> psd P -> excited d h P -> within c P (x - y) ->
  run h (DV x) (DM P) = Ret (true, (DV x', DM P')) -> run h (DV y) (DM P) = Ret (true, (DV y', DM P'')) ->
  P'' = P' /\ within (Rdiv c (pow (Rplus 1 d) (predictions h))) P' (x' - y').
Proof.
  move=> D. elim: h => [|o h IH] c x y x' y' P P' P'' C /=.
  - move=> _ _ _ W /Ret_inj [_ <- <-] /Ret_inj [_ <- <-]. by rewrite /= /Rdiv Rinv_1 Rmult_1_r.
  - move=> [V1 V2] HP [X1 X2] W. have [x2 [P2 [E2 HP2]]] := call_valid x V1 HP. have [y2 [Q2 [F2 _]]] := call_valid y V1 HP.
    have [EQ W2] := call_forgets C D V1 X1 W E2 F2. rewrite E2 F2 /= EQ. move: (X2 _ _ _ E2) => X3. move: W2.
    rewrite /predictions /=. case: (is_predict o) => W2.
    + move=> G1 G2. have := IH _ _ _ _ _ _ _ _ (div_pos C D) V2 HP2 X3 W2 G1 G2. by rewrite div_pow.
    + exact: IH.
Qed.
Lemma call_ratio n (o : op n) d a (x y x' y' : 'cV[R]_n) (P1 P2 P1' P2' : 'M[R]_n) :
  Rle 0 a -> Rle 0 d -> valid o -> psd P1 -> (if o is Predict Phi Q then loewner (d *: (Phi *m P2 *m Phi^T)) Q else True) ->
  loewner P1 (Rplus 1 a *: P2) ->
  call o (DV x) (DM P1) = Ret (true, (DV x', DM P1')) -> call o (DV y) (DM P2) = Ret (true, (DV y', DM P2')) ->
  loewner P1' (Rplus 1 (if is_predict o then Rdiv a (Rplus 1 d) else a) *: P2').
Proof.
  case: o => [Phi Q|m z H Rk] /= A D V HP X W.
  - rewrite !predict_ok => /Ret_inj [_ _ <-] /Ret_inj [_ _ <-] v. rewrite qfZ !qfD. have := X v. rewrite qfZ => Xv.
    apply: ratio_r => //. have := W (Phi^T *m v). by rewrite qfZ -!qf_congr.
  - move=> E1 E2. have [_ _ ->] := update_inv E2. move: (gain P2 H Rk) => L. have HR := pd_psd V.
    apply: loewner_trans (update_optimal E1 L HP HR) _. move=> v. rewrite /joseph qfZ !qfD !qf_congr.
    have A1 := W ((1%:M - L *m H)^T *m v). rewrite qfZ in A1. have A2 := proj2 HR (L^T *m v).
    move: (qf P1 _) (qf P2 _) (qf Rk _) A1 A2 => p1 p2 r A1 A2. have := Rmult_le_pos _ _ A A2. toR. lra.
Qed.
Lemma run_ratio n (h : seq (op n)) d : Rle 0 d -> forall a (x y x' y' : 'cV[R]_n) (P1 P2 P1' P2' : 'M[R]_n),
  Rle 0 a -> all_valid h -> psd P1 -> psd P2 -> excited d h P2 -> loewner P1 (Rplus 1 a *: P2) ->
  run h (DV x) (DM P1) = Ret (true, (DV x', DM P1')) -> run h (DV y) (DM P2) = Ret (true, (DV y', DM P2')) ->
  loewner P1' (Rplus 1 (Rdiv a (pow (Rplus 1 d) (predictions h))) *: P2').
Proof.
  move=> D. elim: h => [|o h IH] a x y x' y' P1 P2 P1' P2' A /=.
  - move=> _ _ _ _ W /Ret_inj [_ _ <-] /Ret_inj [_ _ <-]. by rewrite /= /Rdiv Rinv_1 Rmult_1_r.
  - move=> [V1 V2] HP1 HP2 [X1 X2] W. have [x2 [S1 [E2 HS1]]] := call_valid x V1 HP1. have [y2 [S2 [F2 HS2]]] := call_valid y V1 HP2.
    have W2 := call_ratio A D V1 HP1 X1 W E2 F2. rewrite E2 F2 /=. move: (X2 _ _ _ F2) => X3. move: W2.
    rewrite /predictions /=. case: (is_predict o) => W2.
    + move=> G1 G2. have := IH _ _ _ _ _ _ _ _ _ (div_pos A D) V2 HS1 HS2 X3 W2 G1 G2. by rewrite div_pow.
    + exact: IH.
Qed.

(** ** Full measurements *)
Lemma cycles_valid n (cs : seq (cycle n)) d : all_full d cs -> all_valid (cycles cs).
Proof.
  elim: cs => [|c cs IH] A //=. have [VR VQ _] := A c (or_introl erefl). split=> //. split=> //. apply: IH => c' Hc. exact: A (or_intror Hc).
Qed.
Lemma update_excited n (c : cycle n) d (x x' : 'cV[R]_n) (P P' : 'M[R]_n) : Rle 0 d -> full_cycle d c -> psd P ->
  call (Update (cz c) (cH c) (cR c)) (DV x) (DM P) = Ret (true, (DV x', DM P')) -> loewner (d *: (cPhi c *m P' *m (cPhi c)^T)) (cQ c).
Proof.
  move=> D [VR VQ [L [LH LQ]]] HP /= E. have B := update_full HP (pd_psd VR) LH E.
  apply: loewner_trans LQ. move=> v. rewrite !qfZ. apply: Rmult_le_compat_l => //. exact: (loewner_congr (cPhi c) B v).
Qed.
Lemma cycles_excited n (cs : seq (cycle n)) d : Rle 0 d -> all_full d cs -> forall P, psd P -> excited d (cycles cs) P.
Proof.
  move=> D. elim: cs => [|c cs IH] A P HP //=. have F := A c (or_introl erefl). split=> // x x' P' E.
  have [VR VQ _] := F. have HP' := update_psd E HP (pd_psd VR). split; first exact: (update_excited (x := x) (x' := x') D F HP E).
  move=> y y' P'' E'. apply: IH; first by move=> c' Hc; exact: A (or_intror Hc). exact: (proj1 (predict_psd E' HP' VQ)).
Qed.
Lemma cycles_predictions n (cs : seq (cycle n)) : predictions (cycles cs) = size cs.
Proof. elim: cs => [|c cs IH] //=. by rewrite /predictions /= -/(predictions _) IH. Qed.
(** After one cycle any two covariances are comparable. *)
Lemma cycle_bounds n (c : cycle n) d (x x' : 'cV[R]_n) (P P' : 'M[R]_n) : Rlt 0 d -> full_cycle d c -> psd P ->
  run (cycles [:: c]) (DV x) (DM P) = Ret (true, (DV x', DM P')) ->
  loewner (cQ c) P' /\ loewner P' (Rplus 1 (Rinv d) *: cQ c).
Proof.
  move=> D F HP. have [VR VQ _] := F. rewrite /cycles /=. have [y [S E]] := update_finite x x (cz c) P (cH c) HP VR. rewrite E /=.
  have HS := update_psd E HP (pd_psd VR). have X := update_excited (x := x) (x' := y) (Rlt_le _ _ D) F HP E.
  rewrite predict_ok /= => /Ret_inj [_ _ <-]. split; first by rewrite addrC; apply: loewner_add; exact: psd_congr.
  move=> v. rewrite qfZ qfD. have := X v. rewrite qfZ. move: (qf _ v) (qf _ v) => p q Xv.
  have Y := Rmult_le_compat_l _ _ _ (Rlt_le _ _ (Rinv_0_lt_compat _ D)) Xv. rewrite -Rmult_assoc Rinv_l in Y; last lra. lra.
Qed.
Lemma run_cat n (h1 h2 : seq (op n)) (x : 'cV[R]_n) (P : 'M[R]_n) : all_valid h1 -> psd P ->
  run (h1 ++ h2) (DV x) (DM P) = (r <- run h1 (DV x) (DM P) ;; run h2 r.2.1 r.2.2).
Proof.
  elim: h1 x P => [|o h IH] x P //= [V1 V2] HP. have [y [Q [E HQ]]] := call_valid x V1 HP. rewrite E /=. exact: IH.
Qed.
Lemma cycles_close n (c : cycle n) (cs : seq (cycle n)) d (x y x' y' : 'cV[R]_n) (P1 P2 P1' P2' : 'M[R]_n) :
  Rlt 0 d -> all_full d (c :: cs) -> psd P1 -> psd P2 ->
  run (cycles (c :: cs)) (DV x) (DM P1) = Ret (true, (DV x', DM P1')) -> run (cycles (c :: cs)) (DV y) (DM P2) = Ret (true, (DV y', DM P2')) ->
  loewner P1' (Rplus 1 (Rinv (Rmult d (pow (Rplus 1 d) (size cs)))) *: P2').
Proof.
  move=> D A HP1 HP2. have F := A c (or_introl erefl). have D0 := Rlt_le _ _ D.
  have A1 : all_full d [:: c] by move=> c' [<-|[]]. have A2 : all_full d cs by move=> c' Hc; exact: A (or_intror Hc).
  have V1 := cycles_valid A1. have V2 := cycles_valid A2.
  have -> : cycles (c :: cs) = cycles [:: c] ++ cycles cs by [].
  rewrite !run_cat //. have [x2 [S1 [E1 HS1]]] := run_valid x V1 HP1. have [y2 [S2 [E2 HS2]]] := run_valid y V1 HP2.
  rewrite E1 E2 /= => G1 G2. have [_ U1] := cycle_bounds D F HP1 E1. have [L2 _] := cycle_bounds D F HP2 E2.
  have I0 := Rinv_0_lt_compat _ D.
  have W : loewner S1 (Rplus 1 (Rinv d) *: S2).
  { apply: loewner_trans U1 _. move=> v. rewrite !qfZ. apply: Rmult_le_compat_l; [lra|exact: L2]. }
  have := run_ratio D0 (Rlt_le _ _ I0) V2 HS1 HS2 (cycles_excited D0 A2 HS2) W G1 G2.
  rewrite cycles_predictions. have -> : Rdiv (Rinv d) (pow (Rplus 1 d) (size cs)) = Rinv (Rmult d (pow (Rplus 1 d) (size cs))); last by [].
  have P : Rlt 0 (pow (Rplus 1 d) (size cs)) by apply: pow_lt; lra. field. split; lra.
Qed.
