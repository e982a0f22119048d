(** Proofs about filters whose every call is off by a little, part 2: the
    estimates. *)
From Coq Require Import Reals Lra Psatz.
From mathcomp Require Import all_ssreflect all_algebra.
From Verif Require Import Base BaseMx ModelEigen ModelKalman SpecKalman SpecFilter SpecSteady SpecDisturb ProofMx ProofKalman ProofKalman2 ProofKalman3 ProofKalman4 ProofKalman5 ProofSteady ProofDisturb.
Set Implicit Arguments.
Unset Strict Implicit.
Unset Printing Implicit Defensive.
Import GRing.Theory.
Local Open Scope ring_scope.
Local Open Scope outcome_scope.

(** ** Plain inequalities *)
Lemma abs_sq (x y : R) : Rle 0 y -> Rle (Rmult x x) (Rmult y y) -> Rle (Rabs x) y.
Proof. move=> Y H. rewrite -(Rabs_right y); last exact: Rle_ge. exact: Rsqr_le_abs_0. Qed.
Lemma sq_add (a b p q t : R) : Rle 0 p -> Rle 0 q -> Rle 0 t -> Rle (Rmult a a) (Rmult (Rmult p p) t) -> Rle (Rmult b b) (Rmult (Rmult q q) t) ->
  Rle (Rmult (Rplus a b) (Rplus a b)) (Rmult (Rmult (Rplus p q) (Rplus p q)) t).
Proof.
  move=> P Q T A B. have S := sqrt_sqrt t T. have S0 := sqrt_pos t. set r := sqrt t in S S0. rewrite -S in A B *.
  have A1 : Rle (Rabs a) (Rmult p r). { apply: abs_sq; first exact: Rmult_le_pos. lra. }
  have B1 : Rle (Rabs b) (Rmult q r). { apply: abs_sq; first exact: Rmult_le_pos. lra. }
  have C : Rle (Rabs (Rplus a b)) (Rmult (Rplus p q) r) by have := Rabs_triang a b; lra.
  have D := Rmult_le_compat _ _ _ _ (Rabs_pos _) (Rabs_pos _) C C.
  rewrite -Rabs_mult Rabs_right in D; last exact: Rle_ge (Rle_0_sqr _). lra.
Qed.
Lemma discriminant (a b c : R) : Rle 0 a -> Rle 0 c -> (forall t, Rle (Rmult (Rmult 2 t) b) (Rplus a (Rmult c (Rmult t t)))) -> Rle (Rmult b b) (Rmult a c).
Proof.
  move=> A C H. case: (Req_dec b 0) => [->|Nb]; first by have := Rmult_le_pos _ _ A C; lra.
  case: (Req_dec c 0) => [E|Nc].
  - have := H (Rdiv (Rplus a 1) (Rmult 2 b)). rewrite E. have -> : Rmult (Rmult 2 (Rdiv (Rplus a 1) (Rmult 2 b))) b = Rplus a 1 by field. lra.
  - have := H (Rdiv b c). have -> : Rmult (Rmult 2 (Rdiv b c)) b = Rmult 2 (Rdiv (Rmult b b) c) by field.
    have -> : Rmult c (Rmult (Rdiv b c) (Rdiv b c)) = Rdiv (Rmult b b) c by field. move=> L.
    have L2 : Rle (Rdiv (Rmult b b) c) a by lra. have Pc : Rlt 0 c by lra.
    have := Rmult_le_compat_r c _ _ C L2. have -> : Rmult (Rdiv (Rmult b b) c) c = Rmult b b by field. lra.
Qed.

(** ** Differences of estimates *)
Lemma within_add n (P : 'M[R]_n) (p q : R) (u w : 'cV[R]_n) : psd P -> Rle 0 p -> Rle 0 q ->
  within (Rmult p p) P u -> within (Rmult q q) P w -> within (Rmult (Rplus p q) (Rplus p q)) P (u + w).
Proof.
  move=> [_ HP] Hp Hq U W v. rewrite mulmxDr. have -> : (v^T *m u + v^T *m w) 0 0 = Rplus ((v^T *m u) 0 0) ((v^T *m w) 0 0) by rewrite mxE.
  exact: sq_add.
Qed.
Lemma within_le n (P : 'M[R]_n) (c c' : R) (u : 'cV[R]_n) : psd P -> Rle c c' -> within c P u -> within c' P u.
Proof. move=> [_ HP] L U v. apply: Rle_trans (U v) _. exact: Rmult_le_compat_r. Qed.
Lemma within_loewner n (P P' : 'M[R]_n) (c k : R) (u : 'cV[R]_n) : Rle 0 c -> loewner P (k *: P') -> within c P u -> within (Rmult c k) P' u.
Proof. move=> C L U v. apply: Rle_trans (U v) _. rewrite Rmult_assoc. apply: Rmult_le_compat_l => //. have := L v. by rewrite qfZ. Qed.
Lemma within0 n (P : 'M[R]_n) c : psd P -> Rle 0 c -> within c P 0.
Proof. move=> [_ HP] C v. rewrite mulmx0 mxE. have := Rmult_le_pos _ _ C (HP v). toR. lra. Qed.
Lemma qf_scale n (A : 'M[R]_n) (t : R) v : qf A (t *: v) = Rmult (Rmult t t) (qf A v).
Proof. by rewrite /qf [(t *: v)^T]linearZ /= -scalemxAr -!scalemxAl scalerA mxE. Qed.
(** A symmetric form between -aP and aP. *)
Lemma form_bound n (P F : 'M[R]_n) (a : R) (w g : 'cV[R]_n) : psd P -> symmetric F -> Rle 0 a ->
  (forall v, Rle (qf F v) (Rmult a (qf P v))) -> (forall v, Rle (Ropp (Rmult a (qf P v))) (qf F v)) ->
  Rle (Rmult ((w^T *m F *m g) 0 0) ((w^T *m F *m g) 0 0)) (Rmult (Rmult a a) (Rmult (qf P w) (qf P g))).
Proof.
  move=> [SP HP] SF A U L. set b := (w^T *m F *m g) 0 0.
  have -> : Rmult (Rmult a a) (Rmult (qf P w) (qf P g)) = Rmult (Rmult a (qf P w)) (Rmult a (qf P g)) by toR; ring.
  apply: discriminant; [exact: Rmult_le_pos|exact: Rmult_le_pos|] => t.
  have u := U (w + t *: g). have l := L (w + (Ropp t) *: g). move: u l. rewrite !qf_add // !qf_scale -!scalemxAr.
  have S (c : R) (M : 'M[R]_1) : (c *: M) 0 0 = Rmult c (M 0 0) by rewrite mxE. rewrite !S -/b. move: (qf F w) (qf F g) (qf P w) (qf P g) ((w^T *m P *m g) 0 0) => fw fg pw pg c.
  rewrite !mulr2n. toR. lra.
Qed.

(** ** One measurement *)
Section Drift.
Variables (n m : nat) (P Pt : 'M[R]_n) (H : 'M[R]_(m, n)) (Rk : 'M[R]_m) (a s : R).
Hypotheses (HP : psd P) (HPt : psd Pt) (HR : pd Rk) (B : between a P Pt) (A0 : Rle 0 a) (A1 : Rlt a 1).
Local Notation K := (gain P H Rk).
Local Notation Kt := (gain Pt H Rk).
Local Notation St := (H *m Pt *m H^T + Rk).
Local Notation S := (H *m P *m H^T + Rk).
Hypotheses (US : S \in unitmx) (USt : St \in unitmx).
Lemma gains : (Kt - K) *m St = (1%:M - K *m H) *m (Pt - P) *m H^T.
Proof.
  have E1 := gainS US. have E2 := gainS USt. rewrite mulmxDr in E1.
  have E3 : K *m Rk = P *m H^T - K *m (H *m P *m H^T) by rewrite -E1 [K *m (H *m P *m H^T) + _]addrC addrK.
  rewrite [(Kt - K) *m St]mulmxBl E2 [K *m St]mulmxDr E3 mulmxBl mul1mx mulmxBr !mulmxBl !mulmxA. mx_abel.
Qed.
Lemma gain_drift (nu : 'cV[R]_m) : Rle 0 s -> within (Rmult s s) St nu ->
  within (Rmult (Rmult a a) (Rdiv (Rmult s s) (Rminus 1 a))) (joseph P H Rk K) ((Kt - K) *m nu).
Proof.
  move=> S0 W v. set y := invmx St *m nu. set g := H^T *m y. set w := (1%:M - K *m H)^T *m v.
  have Ny : nu = St *m y by rewrite /y mulKVmx.
  have -> : (v^T *m ((Kt - K) *m nu)) 0 0 = (w^T *m (Pt - P) *m g) 0 0.
  { rewrite Ny [(Kt - K) *m _]mulmxA gains /w trmx_mul trmxK /g !mulmxA. done. }
  have SPt := proj1 HPt. have SP := proj1 HP. have [B1 B2] := B.
  have FB := @form_bound n P (Pt - P) a w g HP. have SD : symmetric (Pt - P) by rewrite /symmetric [LHS]linearB /= SPt SP.
  have FB2 := FB SD A0. apply: Rle_trans (FB2 _ _) _.
  - move=> u. rewrite qfB. have := B2 u. rewrite qfZ. lra.
  - move=> u. rewrite qfB. have := B1 u. rewrite qfZ. lra.
  have Qg : Rle (qf Pt g) (Rmult s s).
  { have -> : qf Pt g = qf (H *m Pt *m H^T) y by rewrite qf_congr.
    have T : Rle (qf (H *m Pt *m H^T) y) (qf St y) by rewrite qfD; have := proj2 (pd_psd HR) y; toR; lra.
    have X := W y. have E : (y^T *m nu) 0 0 = qf St y by rewrite Ny mulmxA. rewrite E in X.
    have Q0 := proj2 (psd_congr H HPt) y. move: (qf St y) (qf (H *m Pt *m H^T) y) T X Q0 => q p T X Q0.
    case: (Rle_lt_dec q 0) => Q1; first by have := Rle_0_sqr s; rewrite /Rsqr; toR; lra.
    apply: Rle_trans T _. by apply: (Rmult_le_reg_r q). }
  have G1 := B1 g. rewrite qfZ in G1.
  have Pg : Rle (qf P g) (Rdiv (Rmult s s) (Rminus 1 a)).
  { apply: (Rmult_le_reg_l (Rminus 1 a)); first lra. have -> : Rmult (Rminus 1 a) (Rdiv (Rmult s s) (Rminus 1 a)) = Rmult s s by field; lra. toR. lra. }
  have Pw : Rle (qf P w) (qf (joseph P H Rk K) v). { have -> : qf P w = qf ((1%:M - K *m H) *m P *m (1%:M - K *m H)^T) v by rewrite qf_congr. have := proj2 (psd_congr K (pd_psd HR)) v. rewrite /joseph qfD. toR. lra. }
  have Pw0 := proj2 HP w. have Pg0 := proj2 HP g.
  have M := Rmult_le_compat _ _ _ _ Pw0 Pg0 Pw Pg. have AA := Rle_0_sqr a. rewrite /Rsqr in AA.
  have := Rmult_le_compat_l _ _ _ AA M. toR. lra.
Qed.
End Drift.

(** ** One call *)
Lemma sq_le (a b : R) : Rle 0 a -> Rle a b -> Rle (Rmult a a) (Rmult b b).
Proof. move=> A L. apply: Rmult_le_compat => //. Qed.
Lemma root_facts d : Rlt 0 d -> Rlt 1 (sqrt (Rplus 1 d)) /\ Rmult (sqrt (Rplus 1 d)) (sqrt (Rplus 1 d)) = Rplus 1 d.
Proof.
  move=> D. split; last by apply: sqrt_sqrt; lra. rewrite -sqrt_1 {2}sqrt_1. apply: sqrt_lt_1; lra.
Qed.
(** What the call itself adds to the difference. *)
Lemma call_drift n (o : op n) d a s p (x y x' y' : 'cV[R]_n) (P1 P2 P1' P2' : 'M[R]_n) :
  Rlt 0 d -> Rle 0 a -> Rle a (Rdiv 1 2) -> Rle 0 s -> Rle 0 p -> valid o -> psd P1 -> psd P2 ->
  (if o is Predict Phi Q then loewner (d *: (Phi *m P2 *m Phi^T)) Q else True) ->
  (if o is Update _ z H Rk then within (Rmult s s) (H *m P1 *m H^T + Rk) (z - H *m x) else True) ->
  between a P2 P1 -> within (Rmult p p) P2 (x - y) ->
  call o (DV x) (DM P1) = Ret (true, (DV x', DM P1')) -> call o (DV y) (DM P2) = Ret (true, (DV y', DM P2')) ->
  let q := if is_predict o then Rdiv p (sqrt (Rplus 1 d)) else Rplus p (Rmult (Rmult 2 a) s) in within (Rmult q q) P2' (x' - y').
Proof.
  move=> D A A2 S0 P0 V HP1 HP2 X W B U. have [R1 R2] := root_facts D. have pp : Rle 0 (Rmult p p) by exact: Rmult_le_pos.
  case: o V X W => [Phi Q|m z H Rk] /= V X W.
  - rewrite !predict_ok => /Ret_inj [_ <- _] /Ret_inj [_ <- <-]. rewrite -mulmxBr => v.
    rewrite qfD. have -> : (v^T *m (Phi *m (x - y))) 0 0 = ((Phi^T *m v)^T *m (x - y)) 0 0 by rewrite trmx_mul trmxK mulmxA.
    have Bv := U (Phi^T *m v). rewrite -qf_congr in Bv. have := X v. rewrite qfZ => Xv.
    have -> : Rmult (Rdiv p (sqrt (Rplus 1 d))) (Rdiv p (sqrt (Rplus 1 d))) = Rdiv (Rmult p p) (Rplus 1 d) by rewrite -{3}R2; field; lra.
    apply: within_r => //. lra.
  - move=> /update_inv [U1 -> _] /update_inv [U2 -> ->]. set K := gain P2 H Rk. set Kt := gain P1 H Rk.
    have -> : x + Kt *m (z - H *m x) - (y + K *m (z - H *m y)) = (1%:M - K *m H) *m (x - y) + (Kt - K) *m (z - H *m x).
    { rewrite !mulmxBl mul1mx !mulmxBr !mulmxA. mx_abel. }
    have HJ : psd (joseph P2 H Rk K) by apply: psdD; apply: psd_congr => //; exact: pd_psd.
    have a1 : Rlt a 1 by lra. have as0 : Rle 0 (Rmult (Rmult 2 a) s) by apply: Rmult_le_pos => //; lra.
    apply: within_add => //.
    + rewrite /joseph. apply: within_mul => //. apply: psd_congr. exact: pd_psd.
    + apply: within_le (gain_drift HP2 HP1 V B A a1 U2 U1 S0 W) => //.
      have ss : Rle 0 (Rmult s s) by exact: Rmult_le_pos. have aa : Rle 0 (Rmult a a) by exact: Rmult_le_pos.
      have I : Rle (Rdiv (Rmult s s) (Rminus 1 a)) (Rmult 2 (Rmult s s)).
      { apply: (Rmult_le_reg_l (Rminus 1 a)); first lra. have -> : Rmult (Rminus 1 a) (Rdiv (Rmult s s) (Rminus 1 a)) = Rmult s s by field; lra.
        have : Rle (Rmult 1 (Rmult s s)) (Rmult (Rmult 2 (Rminus 1 a)) (Rmult s s)) by apply: Rmult_le_compat_r => //; lra. lra. }
      have := Rmult_le_compat_l _ _ _ aa I. have := Rmult_le_pos _ _ aa ss. lra.
Qed.

(** ** Estimates *)
Lemma level_root d g m k : Rlt 0 d -> Rle 0 g -> (k <= m)%N ->
  Rle (Rplus (Rdiv (level (Rminus (sqrt (Rplus 1 d)) 1) (Rdiv g 2) m k) (sqrt (Rplus 1 d))) g) (level (Rminus (sqrt (Rplus 1 d)) 1) (Rdiv g 2) m m).
Proof.
  move=> D G KM. have [R1 R2] := root_facts D. set r := sqrt (Rplus 1 d) in R1 R2 *.
  have D' : Rlt 0 (Rminus r 1) by lra. have G' : Rle 0 (Rdiv g 2) by lra. have := level_predict m k D' G'.
  have -> : Rplus 1 (Rminus r 1) = r by lra. have -> : Rmult 2 (Rdiv g 2) = g by field. done.
Qed.
Lemma unsurprised_bound n (h : seq (op n)) d e f s m : Rlt 0 d -> Rle 0 e -> Rle 0 f -> Rle 0 s -> Rle (limit d e m) (Rdiv 1 2) ->
  let d' := Rminus (sqrt (Rplus 1 d)) 1 in let g := Rmult 2 (Rplus (Rmult (limit d e m) s) f) in
  forall k p (x y x' y' : 'cV[R]_n) (P1 P2 P1' P2' : 'M[R]_n),
  (k <= m)%N -> all_valid h -> psd P1 -> psd P2 -> excited d h P2 -> spaced m k h ->
  between (level d e m k) P2 P1 -> Rle 0 p -> Rle p (level d' (Rdiv g 2) m k) -> within (Rmult p p) P2 (x - y) ->
  unsurprised e f s h x P1 x' P1' -> run h (DV y) (DM P2) = Ret (true, (DV y', DM P2')) ->
  [/\ psd P1', between (limit d e m) P2' P1' & within (Rmult (limit d' (Rdiv g 2) m) (limit d' (Rdiv g 2) m)) P2' (x' - y')].
Proof.
  move=> D E F S0 L12 d' g. have D0 : Rle 0 d by lra. have [R1 R2] := root_facts D.
  have D'0 : Rlt 0 d' by rewrite /d'; lra.
  have Lim0 : Rle 0 (limit d e m) by have := limit_ge m D E; lra.
  have g0 : Rle 0 g. { rewrite /g. have := Rmult_le_pos _ _ Lim0 S0. lra. } have G2 : Rle 0 (Rdiv g 2) by lra.
  elim: h => [|o h IH] k p x y x' y' P1 P2 P1' P2' KM /=.
  - move=> _ HP1 HP2 _ _ W Pp Pl U [-> ->] /Ret_inj [_ <- <-]. split=> //; first by apply: between_le W => //; exact: level_le.
    apply: within_le U => //. apply: sq_le => //. apply: Rle_trans Pl _. exact: level_le.
  - move=> [V1 V2] HP1 HP2 [X1 X2] Sp W Pp Pl U [SU [x1 [x2 [S1 [S1' [C1 SS BE FE DI]]]]]]. have [y2 [S2 [F2 HS2]]] := call_valid y V1 HP2.
    have [x3 [P3 [C3 HS1]]] := call_valid x V1 HP1. move: C3. rewrite C1 => /Ret_inj [_ _ E3]. rewrite -{}E3 {P3} in HS1.
    have LE := level_le m k D E. have LG := level_ge0 D E KM.
    have A3 : Rlt (level d e m k) 1 by lra.
    have W2 := call_between LG A3 D0 V1 HP1 HP2 X1 W C1 F2.
    have B0 := limit_ge m D E. have B1 : Rle e 1 by lra.
    have G1 : Rle 0 (after d o (level d e m k)) by exact: after_ge0.
    have G3 : Rle (after d o (level d e m k)) 1 by have := after_le o LG D0; lra.
    have W3 := between_trans HS2 G1 G3 E B1 W2 BE. have HS3 : psd S1'. { apply: between_psd B1 HS1 SS BE. }
    have L2 : Rle (level d e m k) (Rdiv 1 2) by lra.
    have U2 := call_drift D LG L2 S0 Pp V1 HP1 HP2 X1 SU W U C1 F2.
    have FE2 : within (Rmult (Rmult 2 f) (Rmult 2 f)) S2 (x2 - x1).
    { have ff : Rle 0 (Rmult f f) by exact: Rmult_le_pos. apply: within_le (within_loewner ff (proj2 W2) FE) => //.
      have := Rmult_le_compat_l _ _ _ ff G3. lra. }
    have f2 : Rle 0 (Rmult 2 f) by lra.
    rewrite F2 /=. move: (X2 _ _ _ F2) => X3. move: W3 Sp U2. rewrite /after.
    have XE : x2 - y2 = (x1 - y2) + (x2 - x1) by mx_abel.
    case: o V1 X1 X2 SU C1 F2 W2 G1 G3 => [Phi Q|m' z H Rk] V1 X1 X2 SU C1 F2 W2 G1 G3 /= W3 Sp U2.
    + have W4 : between (level d e m m) S2 S1' by apply: between_le W3 => //; exact: level_predict.
      have q0 : Rle 0 (Rdiv p (sqrt (Rplus 1 d))) by apply: Rmult_le_pos => //; left; apply: Rinv_0_lt_compat; lra.
      have U3 := within_add HS2 q0 f2 U2 FE2. rewrite -XE in U3.
      apply: (IH m _ _ _ _ _ _ _ _ _ (leqnn m) V2 HS3 HS2 X3 Sp W4 _ _ U3 DI); first lra.
      have Lr := level_root D g0 KM. rewrite -/d' in Lr.
      have Pl' : Rle (Rdiv p (sqrt (Rplus 1 d))) (Rdiv (level d' (Rdiv g 2) m k) (sqrt (Rplus 1 d))). { apply: Rmult_le_compat_r => //. left; apply: Rinv_0_lt_compat; lra. }
      have gf : Rle (Rmult 2 f) g by rewrite /g; have := Rmult_le_pos _ _ Lim0 S0; lra. lra.
    + case: k KM Sp W W2 W3 LE LG A3 G1 G3 Pl L2 U2 => [|k] KM //= Sp W W2 W3 LE LG A3 G1 G3 Pl L2 U2.
      have W4 : between (level d e m k) S2 S1' by apply: between_le W3 => //; rewrite -(level_update d e m k); exact: Rle_refl.
      have q0 : Rle 0 (Rplus p (Rmult (Rmult 2 (level d e m k.+1)) s)) by have := Rmult_le_pos _ _ LG S0; lra.
      have U3 := within_add HS2 q0 f2 U2 FE2. rewrite -XE in U3.
      apply: (IH k _ _ _ _ _ _ _ _ _ (ltnW KM) V2 HS3 HS2 X3 Sp W4 _ _ U3 DI); first lra.
      have := level_update d' (Rdiv g 2) m k. have := Rmult_le_compat_r _ _ _ S0 LE.
      have Eg : g = Rmult 2 (Rplus (Rmult (limit d e m) s) f) := erefl. lra.
Qed.
Lemma root_limit d g m : Rlt 0 d -> Rle 0 g -> Rle (limit (Rminus (sqrt (Rplus 1 d)) 1) (Rdiv g 2) m) (Rmult (Rmult (Rmult 2 g) (Rplus (INR m) 1)) (Rplus 1 (Rinv d))).
Proof.
  move=> D G. have [R1 R2] := root_facts D. set r := sqrt (Rplus 1 d) in R1 R2 *. rewrite /limit. have M := pos_INR m.
  have gm : Rle 0 (Rmult g (Rplus (INR m) 1)) by apply: Rmult_le_pos => //; lra.
  have K : Rle (Rplus 1 (Rinv (Rminus r 1))) (Rmult 2 (Rplus 1 (Rinv d))).
  { have E : d = Rmult (Rminus r 1) (Rplus r 1) by lra. have I : Rlt 0 (Rinv (Rminus r 1)) by apply: Rinv_0_lt_compat; lra.
    have -> : Rinv d = Rdiv (Rinv (Rminus r 1)) (Rplus r 1) by rewrite E; field; lra.
    have : Rinv (Rminus r 1) = Rplus (Rdiv (Rinv (Rminus r 1)) (Rplus r 1)) (Rinv (Rplus r 1)) + Rdiv (Rinv (Rminus r 1)) (Rplus r 1) by toR; field; lra.
    have : Rlt (Rinv (Rplus r 1)) 1 by rewrite -{2}Rinv_1; apply: Rinv_lt_contravar; lra. toR. lra. }
  have := Rmult_le_compat_l _ _ _ gm K. have -> : Rmult 2 (Rdiv g 2) = g by field. lra.
Qed.
Lemma same_between n (P : 'M[R]_n) a : psd P -> Rle 0 a -> between a P P.
Proof.
  move=> [_ HP] A. split=> v; rewrite qfZ; have := Rmult_le_pos _ _ A (HP v); lra.
Qed.
Lemma estimates_stay n (h : seq (op n)) d e f s m (x x' y' : 'cV[R]_n) (P P1' P2' : 'M[R]_n) : Rlt 0 d -> Rle 0 e -> Rle 0 f -> Rle 0 s ->
  let K := Rmult (Rmult (Rmult 2 e) (Rplus (INR m) 1)) (Rplus 1 (Rinv d)) in
  let C := Rmult (Rmult (Rmult 4 (Rplus (Rmult K s) f)) (Rplus (INR m) 1)) (Rplus 1 (Rinv d)) in
  Rle K (Rdiv 1 2) -> all_valid h -> psd P -> excited d h P -> spaced m m h ->
  unsurprised e f s h x P x' P1' -> run h (DV x) (DM P) = Ret (true, (DV y', DM P2')) ->
  between K P2' P1' /\ within (Rmult C C) P2' (x' - y').
Proof.
  move=> D E F S0 K C K12 V HP X Sp U RU. have KE : K = limit d e m := erefl. rewrite KE in K12.
  have Lim0 : Rle 0 (limit d e m) by have := limit_ge m D E; lra. have [R1 R2] := root_facts D.
  have g0 : Rle 0 (Rmult 2 (Rplus (Rmult (limit d e m) s) f)) by have := Rmult_le_pos _ _ Lim0 S0; lra.
  have [||||H1 H2 H3] := @unsurprised_bound n h d e f s m D E F S0 K12 m 0 x x x' y' P P P1' P2' (leqnn m) V HP HP X Sp _ _ _ _ U RU.
  - apply: same_between => //. exact: level_ge0.
  - exact: Rle_refl.
  - apply: level_ge0 => //; lra.
  - rewrite subrr. apply: within0 => //. lra.
  split=> //. have [y2 [P3 [RU2 HP3]]] : exists (y2 : 'cV[R]_n) (P3 : 'M[R]_n), run h (DV x) (DM P) = Ret (true, (DV y2, DM P3)) /\ psd P3.
  { exact: run_valid. }
  move: RU2. rewrite RU => /Ret_inj [_ _ EP]. rewrite -EP in HP3.
  apply: within_le H3 => //. have D' : Rlt 0 (Rminus (sqrt (Rplus 1 d)) 1) by lra.
  have g2 : Rle 0 (Rdiv (Rmult 2 (Rplus (Rmult (limit d e m) s) f)) 2) by lra.
  apply: sq_le; first by have := limit_ge m D' g2; lra.
  apply: Rle_trans (root_limit m D g0) _. rewrite /C KE. right. ring.
Qed.

(** ** Disturbed runs exist *)
Lemma between_more n (P : 'M[R]_n) e : psd P -> Rle 0 e -> between e P (Rplus 1 e *: P).
Proof. move=> [_ HP] E. split=> v; rewrite !qfZ; last exact: Rle_refl. have := Rmult_le_pos _ _ E (HP v). lra. Qed.
Lemma more_psd n (P : 'M[R]_n) e : psd P -> Rle 0 e -> psd (Rplus 1 e *: P).
Proof. move=> HP E. apply: psdZ => //. lra. Qed.
Lemma unsurprised_more n (h : seq (op n)) e f s s' : Rle 0 s -> Rle s s' -> forall (x x' : 'cV[R]_n) (P P' : 'M[R]_n), all_valid h -> psd P -> Rle e 1 ->
  unsurprised e f s h x P x' P' -> unsurprised e f s' h x P x' P'.
Proof.
  move=> S L. elim: h => [|o h IH] x x' P P' //= [V1 V2] HP E [W [x1 [x2 [P1 [P2 [C1 SS B F U]]]]]]. split.
  - case: o V1 W C1 => // m z H Rk V1 W C1. apply: within_le W; last exact: sq_le. apply: psdD; [exact: psd_congr|exact: pd_psd].
  - exists x1, x2, P1, P2. have [x3 [P3 [C3 HS1]]] := call_valid x V1 HP. move: C3. rewrite C1 => /Ret_inj [_ _ E3]. rewrite -{}E3 {P3} in HS1.
    split=> //. apply: IH => //. exact: between_psd E HS1 SS B.
Qed.
Lemma unsurprised_exists n (h : seq (op n)) e f : Rle 0 e -> Rle e 1 -> forall (x : 'cV[R]_n) (P : 'M[R]_n), all_valid h -> psd P ->
  exists s (x' : 'cV[R]_n) (P' : 'M[R]_n), Rle 0 s /\ unsurprised e f s h x P x' P'.
Proof.
  move=> E E1. elim: h => [|o h IH] x P /=.
  - move=> _ _. exists 0, x, P. split=> //. exact: Rle_refl.
  - move=> [V1 V2] HP. have [x1 [P1 [C1 HP1]]] := call_valid x V1 HP. have HP2 := more_psd HP1 E.
    have [s [x' [P' [S U]]]] := IH x1 _ V2 HP2.
    have [c [C0 W]] : exists c, Rle 0 c /\ (if o is Update _ z H Rk then within (Rmult c c) (H *m P *m H^T + Rk) (z - H *m x) else True).
    { case: (o) V1 => [Phi Q|m z H Rk] /= V1; first by exists 0; split=> //; exact: Rle_refl.
      have HS : pd (H *m P *m H^T + Rk) by apply: psd_pd => //; exact: psd_congr.
      set q := qf (invmx (H *m P *m H^T + Rk)) (z - H *m x). exists (sqrt (Rabs q)). split; first exact: sqrt_pos.
      have SQ := sqrt_sqrt _ (Rabs_pos q). have SP : Rle 0 (Rmult (sqrt (Rabs q)) (sqrt (Rabs q))) by rewrite SQ; exact: Rabs_pos.
      apply/(within_inv _ HS SP). rewrite SQ. exact: Rle_abs. }
    exists (Rplus s c), x', P'. have S1 : Rle s (Rplus s c) by lra. split; first lra. split.
    + case: (o) V1 W => // m z H Rk V1 W. apply: within_le W; last by apply: sq_le => //; lra. apply: psdD; [exact: psd_congr|exact: pd_psd].
    + exists x1, x1, P1, (Rplus 1 e *: P1). split=> //; [exact: (proj1 HP2)|exact: between_more|rewrite subrr; apply: within0 => //; exact: Rle_0_sqr|].
      exact: unsurprised_more U.
Qed.
Lemma unsurprised_disturbed n (h : seq (op n)) e f s : forall (x x' : 'cV[R]_n) (P P' : 'M[R]_n), unsurprised e f s h x P x' P' -> disturbed e f h x P x' P'.
Proof.
  elim: h => [|o h IH] x x' P P' //= [_ [x1 [x2 [P1 [P2 [C1 SS B F U]]]]]]. exists x1, x2, P1, P2. split=> //. exact: IH.
Qed.

(** Without noise the changes pile up. *)
Definition idle k : seq (op 1) := nseq k (Predict 1%:M 0).
Lemma idle_call (x : 'cV[R]_1) (P : 'M[R]_1) : call (Predict (1%:M : 'M[R]_1) (0 : 'M[R]_1)) (DV x) (DM P) = Ret (true, (DV x, DM P)).
Proof. by rewrite /call predict_ok !mul1mx trmx1 mulmx1 addr0. Qed.
Lemma idle_run k (x : 'cV[R]_1) (P : 'M[R]_1) : run (idle k) (DV x) (DM P) = Ret (true, (DV x, DM P)).
Proof.
  elim: k => [|k IH]; first by []. have -> : run (idle k.+1) (DV x) (DM P) = (r <- call (Predict (1%:M : 'M[R]_1) (0 : 'M[R]_1)) (DV x) (DM P) ;; if r.1 then run (idle k) r.2.1 r.2.2 else Ret r) by [].
  by rewrite idle_call.
Qed.
Lemma idle_disturbed k e f (x : 'cV[R]_1) : Rle 0 e -> forall P : 'M[R]_1, psd P -> disturbed e f (idle k) x P x (pow (Rplus 1 e) k *: P).
Proof.
  move=> E. elim: k => [|k IH] P HP /=; first by rewrite scale1r.
  exists x, x, P, (Rplus 1 e *: P). split.
  - exact: idle_call.
  - exact: (proj1 (more_psd HP E)).
  - exact: between_more.
  - rewrite subrr. apply: within0 => //. exact: Rle_0_sqr.
  - have -> : Rmult (Rplus 1 e) (pow (Rplus 1 e) k) *: P = pow (Rplus 1 e) k *: (Rplus 1 e *: P) by rewrite scalerA; congr (_ *: _); exact: Rmult_comm.
    apply: IH. exact: more_psd.
Qed.
Lemma idle_valid k : all_valid (idle k).
Proof. elim: k => [|k IH] //=. split=> //. exact: psd0. Qed.
Lemma idle_spaced k m : spaced m m (idle k).
Proof. by elim: k. Qed.
Lemma idle_grows e : Rlt 0 e -> ~ exists K, forall (h : seq (op 1)) (x x' y' : 'cV[R]_1) (P P1' P2' : 'M[R]_1), all_valid h -> psd P -> spaced 0 0 h ->
  disturbed e 0 h x P x' P1' -> run h (DV x) (DM P) = Ret (true, (DV y', DM P2')) -> between K P2' P1'.
Proof.
  move=> E [K B]. have [N HN] := Pow_x_infinity (Rplus 1 e) ltac:(rewrite Rabs_right; lra) (Rplus 2 (Rabs K)).
  have E0 : Rle 0 e by lra.
  have [_ H] := B (idle N) 0 0 0 1%:M _ _ (idle_valid N) (pd_psd (pd1 1)) (idle_spaced N 0) (idle_disturbed N 0 0 E0 (pd_psd (pd1 1))) (idle_run N 0 1%:M).
  have := H 1%:M. rewrite !qfZ. have -> : qf (1%:M : 'M[R]_1) (1%:M : 'cV[R]_1) = 1 by rewrite /qf trmx1 !mulmx1 mxE.
  have := HN N (le_n N). have Pp : Rlt 0 (pow (Rplus 1 e) N) by apply: pow_lt; lra. rewrite Rabs_right; last by left. have := Rle_abs K. toR. lra.
Qed.

(** ** The claims *)
Lemma covariances_stay n (h : seq (op n)) d e f m a (x y x' y' : 'cV[R]_n) (P1 P2 P1' P2' : 'M[R]_n) : Rlt 0 d -> Rle 0 e -> Rle 0 a ->
  let K := Rmult (Rmult (Rmult 2 e) (Rplus (INR m) 1)) (Rplus 1 (Rinv d)) in
  Rlt (Rplus a K) 1 -> all_valid h -> psd P1 -> psd P2 -> excited d h P2 -> spaced m m h -> between a P2 P1 ->
  disturbed e f h x P1 x' P1' -> run h (DV y) (DM P2) = Ret (true, (DV y', DM P2')) ->
  between (Rplus (Rdiv a (pow (Rplus 1 d) (predictions h))) K) P2' P1'.
Proof.
  move=> D E A K K1 V HP1 HP2 X Sp B DI RU. have L0 := level_ge0 D E (leqnn m).
  have B' : between (Rplus a (level d e m m)) P2 P1 by apply: between_le B => //; lra.
  exact: (proj2 (disturbed_bound D E (leqnn m) A K1 V HP1 HP2 X Sp B' DI RU)).
Qed.
Lemma cycles_spaced n (cs : seq (cycle n)) : spaced 1 1 (cycles cs).
Proof. by elim: cs. Qed.
Lemma cycles_stay n (cs : seq (cycle n)) d e f (x y x' y' : 'cV[R]_n) (P P1' P2' : 'M[R]_n) : Rlt 0 d -> Rle 0 e ->
  Rlt (Rmult (Rmult 4 e) (Rplus 1 (Rinv d))) 1 -> all_full d cs -> psd P ->
  disturbed e f (cycles cs) x P x' P1' -> run (cycles cs) (DV y) (DM P) = Ret (true, (DV y', DM P2')) ->
  between (Rmult (Rmult 4 e) (Rplus 1 (Rinv d))) P2' P1'.
Proof.
  move=> D E K1 F HP DI RU. have D0 : Rle 0 d by lra.
  have EQ : Rmult (Rmult (Rmult 2 e) (Rplus (INR 1) 1)) (Rplus 1 (Rinv d)) = Rmult (Rmult 4 e) (Rplus 1 (Rinv d)) by rewrite /=; ring.
  have := @covariances_stay n (cycles cs) d e f 1 0 x y x' y' P P P1' P2' D E (Rle_refl 0). rewrite /= -/(INR 1).
  have -> : Rdiv 0 (pow (Rplus 1 d) (predictions (cycles cs))) = R0 by rewrite /Rdiv Rmult_0_l.
  rewrite EQ !Rplus_0_l. apply=> //; [exact: cycles_valid F|exact: cycles_excited|exact: cycles_spaced|]. apply: same_between => //. exact: Rle_refl.
Qed.
