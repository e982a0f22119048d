(** Proofs about filters whose every call is off by a little, part 3: without
    symmetry. *)
From Coq Require Import Reals Lra Psatz.
From mathcomp Require Import all_ssreflect all_algebra.
From Verif Require Import Base BaseMx ModelEigen ModelKalman SpecKalman SpecFilter SpecSteady SpecDisturb SpecLopsided ProofMx ProofKalman ProofKalman2 ProofKalman3 ProofKalman4 ProofKalman5 ProofSteady ProofDisturb ProofDisturb2.
Set Implicit Arguments.
Unset Strict Implicit.
Unset Printing Implicit Defensive.
Import GRing.Theory.
Local Open Scope ring_scope.
Local Open Scope outcome_scope.

Lemma entryD (A B : 'M[R]_1) : (A + B) 0 0 = Rplus (A 0 0) (B 0 0).
Proof. by rewrite mxE. Qed.
Lemma entryN (A : 'M[R]_1) : (- A) 0 0 = Ropp (A 0 0).
Proof. by rewrite mxE. Qed.

(** ** Plain inequalities *)
Lemma sq_le_abs (x y : R) : Rle (Rabs x) y -> Rle (Rmult x x) (Rmult y y).
Proof.
  move=> H. have -> : Rmult x x = Rmult (Rabs x) (Rabs x) by rewrite -Rabs_mult Rabs_right //; exact: Rle_ge (Rle_0_sqr x).
  have := Rabs_pos x. move=> P. exact: Rmult_le_compat.
Qed.
Lemma prod_le (a b c d e f : R) : Rle 0 a -> Rle 0 b -> Rle a c -> Rle b d -> Rle 0 e -> Rle (Rmult e e) f -> Rle (Rmult (Rmult e e) (Rmult a b)) (Rmult f (Rmult c d)).
Proof. move=> A B AC BD E EF. apply: Rmult_le_compat => //; [exact: Rle_0_sqr|exact: Rmult_le_pos|exact: Rmult_le_compat]. Qed.
(** From (1-a) Y <= |b| and b^2 <= a^2 Y G. *)
Lemma root_step (a b Y G : R) : Rle 0 a -> Rlt a 1 -> Rle 0 Y -> Rle 0 G -> Rle (Rmult (Rminus 1 a) Y) b -> Rle (Rmult b b) (Rmult (Rmult a a) (Rmult Y G)) ->
  Rle Y (Rmult (Rmult (Rdiv a (Rminus 1 a)) (Rdiv a (Rminus 1 a))) G).
Proof.
  move=> A A1 HY HG L S. have I : Rlt 0 (Rminus 1 a) by lra. have L0 : Rle 0 (Rmult (Rminus 1 a) Y) by apply: Rmult_le_pos => //; lra.
  have T := Rmult_le_compat _ _ _ _ L0 L0 L L.
  case: (Rle_lt_dec Y 0) => Y0.
  - have : Rle 0 (Rmult (Rmult (Rdiv a (Rminus 1 a)) (Rdiv a (Rminus 1 a))) G) by apply: Rmult_le_pos => //; exact: Rle_0_sqr. lra.
  - apply: (Rmult_le_reg_l (Rmult (Rmult (Rminus 1 a) (Rminus 1 a)) Y)); first by repeat apply: Rmult_lt_0_compat.
    have -> : Rmult (Rmult (Rmult (Rminus 1 a) (Rminus 1 a)) Y) (Rmult (Rmult (Rdiv a (Rminus 1 a)) (Rdiv a (Rminus 1 a))) G) = Rmult (Rmult a a) (Rmult Y G) by field; lra.
    lra.
Qed.
Lemma frac_le (a : R) : Rle 0 a -> Rle a (Rdiv 1 2) -> Rle (Rdiv a (Rminus 1 a)) (Rplus a (Rmult 2 (Rmult a a))).
Proof.
  move=> A A1. apply: (Rmult_le_reg_r (Rminus 1 a)); first lra. have -> : Rmult (Rdiv a (Rminus 1 a)) (Rminus 1 a) = a by field; lra.
  have : Rle 0 (Rmult (Rmult a a) (Rminus 1 (Rmult 2 a))) by apply: Rmult_le_pos; [exact: Rle_0_sqr|lra]. lra.
Qed.

(** ** Likeness *)
Lemma alike_between n (a : R) (A B : 'M[R]_n) : Rle 0 a -> psd A -> alike a A B -> between a A B.
Proof.
  move=> A0 [_ HA] L. have K v : Rle (Rabs (qf (B - A) v)) (Rmult a (qf A v)).
  { apply: abs_sq; first exact: Rmult_le_pos. have := L v v. rewrite -/(qf (B - A) v). lra. }
  split=> v; have := K v; rewrite qfB qfZ; move=> Kv; have := Rle_abs (Rminus (qf B v) (qf A v)); have := Rle_abs (Ropp (Rminus (qf B v) (qf A v))); rewrite Rabs_Ropp; lra.
Qed.
Lemma alike_le n (a b : R) (A B : 'M[R]_n) : psd A -> Rle 0 a -> Rle a b -> alike a A B -> alike b A B.
Proof.
  move=> [_ HA] A0 L H w g. apply: Rle_trans (H w g) _. apply: Rmult_le_compat_r; first exact: Rmult_le_pos. exact: sq_le.
Qed.
Lemma alike_refl n (a : R) (A : 'M[R]_n) : psd A -> alike a A A.
Proof.
  move=> [_ HA] w g. rewrite subrr mulmx0 mul0mx mxE. have : Rle 0 (Rmult (Rmult a a) (Rmult (qf A w) (qf A g))) by apply: Rmult_le_pos; [exact: Rle_0_sqr|exact: Rmult_le_pos]. toR. lra.
Qed.
Lemma alike_trans n (a e : R) (A B C : 'M[R]_n) : psd A -> Rle 0 a -> Rle a 1 -> Rle 0 e -> alike a A B -> alike e B C -> alike (Rplus a (Rmult 2 e)) A C.
Proof.
  move=> HA A0 A1 E0 L M. have [B1 B2] := alike_between A0 HA L. move=> w g.
  have -> : C - A = (B - A) + (C - B) by rewrite [RHS]addrC addrA addrNK.
  rewrite mulmxDr mulmxDl entryD. have Aw := proj2 HA w. have Ag := proj2 HA g.
  apply: sq_add; [exact: A0|lra|exact: Rmult_le_pos|exact: L|].
  apply: Rle_trans (M w g) _. have q0 v : Rle 0 (qf B v). { have := B1 v. rewrite qfZ. have := proj2 HA v => P. have : Rle 0 (Rmult (Rminus 1 a) (qf A v)) by apply: Rmult_le_pos => //; lra. lra. }
  have q2 v : Rle (qf B v) (Rmult 2 (qf A v)). { have := B2 v. rewrite qfZ. have := Rmult_le_compat_r _ _ _ (proj2 HA v) A1. lra. }
  have := Rmult_le_compat_l _ _ _ (Rle_0_sqr e) (Rmult_le_compat _ _ _ _ (q0 w) (q0 g) (q2 w) (q2 g)). rewrite /Rsqr. lra.
Qed.
(** The seminorm of a sum. *)
Lemma qf_root n (P : 'M[R]_n) (p : R) (u v : 'cV[R]_n) : psd P -> Rle 0 p -> Rle (qf P v) (Rmult (Rmult p p) (qf P u)) ->
  Rle (qf P (u + v)) (Rmult (Rmult (Rplus 1 p) (Rplus 1 p)) (qf P u)).
Proof.
  move=> HP P0 L. rewrite (qf_add _ _ (proj1 HP)). have U := proj2 HP u.
  have F : Rle (Rabs ((u^T *m P *m v) 0 0)) (Rmult p (qf P u)).
  { apply: abs_sq; first exact: Rmult_le_pos. have := @form_bound n P P 1 u v HP (proj1 HP) ltac:(lra).
    have U1 w : Rle (qf P w) (Rmult 1 (qf P w)) by lra. move=> /(_ U1) => H.
    have : Rle (Rmult ((u^T *m P *m v) 0 0) ((u^T *m P *m v) 0 0)) (Rmult (Rmult 1 1) (Rmult (qf P u) (qf P v))).
    { apply: H => w. have := proj2 HP w. lra. }
    have := Rmult_le_compat_l _ _ _ U L. lra. }
  have F2 := Rle_trans _ _ _ (Rle_abs _) F. move: ((u^T *m P *m v) 0 0) F2 {F} => c F2. rewrite mulr2n. toR. lra.
Qed.

Lemma change_algebra n m (M D Mt : 'M[R]_n) (Ht : 'M[R]_(n, m)) (Kt H : 'M[R]_(m, n)) (X : 'M[R]_m) : Mt = 1%:M - Ht *m Kt ->
  M *m D - M *m D *m Ht *m (Kt + X *m (H *m D *m Mt)) = M *m (D - D *m Ht *m X *m H *m D) *m Mt.
Proof.
  move=> E. have MD : M *m D = M *m D *m Mt + M *m D *m Ht *m Kt by rewrite {1}E mulmxBr mulmx1 !mulmxA addrNK.
  rewrite {1}MD mulmxDr mulmxBr mulmxBl !mulmxA. mx_abel.
Qed.

Lemma form_algebra n m (M D : 'M[R]_n) (w g : 'cV[R]_n) (Ht : 'M[R]_(n, m)) (H : 'M[R]_(m, n)) (X : 'M[R]_m) :
  w^T *m (M *m (D - D *m Ht *m X *m H *m D) *m M^T) *m g = (M^T *m w)^T *m D *m (M^T *m g - Ht *m (X *m (H *m (D *m (M^T *m g))))).
Proof. by rewrite trmx_mul trmxK mulmxBr mulmxBr mulmxBl mulmxBr mulmxBl !mulmxA. Qed.

(** ** One measurement *)
Section Update.
Variables (n m : nat) (P Pt : 'M[R]_n) (H : 'M[R]_(m, n)) (Rk : 'M[R]_m) (a s : R).
Hypotheses (HP : psd P) (HR : pd Rk) (L : alike a P Pt) (A0 : Rle 0 a) (A1 : Rlt a 1).
Local Notation K := (gain P H Rk).
Local Notation Kt := (gain Pt H Rk).
Local Notation St := (H *m Pt *m H^T + Rk).
Local Notation S := (H *m P *m H^T + Rk).
Local Notation M := (1%:M - K *m H).
Local Notation D := (Pt - P).
Local Notation J := (joseph P H Rk K).
Hypotheses (US : S \in unitmx) (USt : St \in unitmx).
Let B := alike_between A0 HP L.
Lemma qf_Pt v : Rle (Rmult (Rminus 1 a) (qf P v)) (qf Pt v).
Proof. have := proj1 B v. by rewrite qfZ. Qed.
Lemma qf_St y : Rle (qf Pt (H^T *m y)) (qf St y).
Proof. rewrite qfD qf_congr. have := proj2 (pd_psd HR) y. toR. lra. Qed.
Lemma qf_M v : Rle (qf P (M^T *m v)) (qf J v).
Proof.
  have -> : qf P (M^T *m v) = qf (M *m P *m M^T) v by rewrite qf_congr. have := proj2 (psd_congr K (pd_psd HR)) v. rewrite /joseph qfD. toR. lra.
Qed.
Lemma MPH : M *m P *m H^T = K *m Rk.
Proof.
  have E1 := gainS US. rewrite mulmxDr in E1. rewrite !mulmxBl mul1mx -[X in X - _]E1 !mulmxA. mx_abel.
Qed.
Lemma HPM : H *m P *m M^T = Rk *m K^T.
Proof.
  have := congr1 (fun X => X^T) MPH. rewrite !trmx_mul trmxK (proj1 HP) (proj1 (pd_psd HR)) !mulmxA. exact.
Qed.
Lemma gains2 : Kt *m St - K *m St = M *m D *m H^T.
Proof.
  have E2 := gainS USt. rewrite E2 mulmxBr mulmxBl MPH [K *m St]mulmxDr !mulmxBl mul1mx !mulmxA. mx_abel.
Qed.
(** The exact change of the covariance after the update. *)
Lemma gains3 : Kt - K = M *m D *m H^T *m invmx St.
Proof. by rewrite -gains2 -mulmxBl mulmxK. Qed.
Lemma update_change : joseph Pt H Rk Kt - J = M *m (D - D *m H^T *m invmx St *m H *m D) *m M^T.
Proof.
  have E3 : invmx St *m (H *m Pt) = K^T + invmx St *m (H *m D *m M^T).
  { have -> : H *m D *m M^T = H *m Pt - St *m K^T.
    { rewrite mulmxBr mulmxBl HPM mulmxDl [(1%:M - _)^T]linearB /= trmx1 trmx_mul !mulmxBr !mulmx1 !mulmxA. mx_abel. }
    rewrite [invmx St *m (_ - _)]mulmxBr mulKmx //. mx_abel. }
  have EA : joseph Pt H Rk Kt - J = M *m D - (Kt - K) *m (H *m Pt).
  { rewrite !joseph_gain' // mulmxBr !mulmxBl !mul1mx !mulmxA. mx_abel. }
  rewrite EA gains3 -[_ *m invmx St *m (H *m Pt)]mulmxA E3.
  have MT : M^T = 1%:M - H^T *m K^T by rewrite [(1%:M - K *m H)^T]linearB /= trmx1 trmx_mul.
  exact: change_algebra.
Qed.
(** The update makes the likeness worse by its square at most. *)
Lemma update_alike : alike (Rdiv a (Rminus 1 a)) J (joseph Pt H Rk Kt).
Proof.
  move=> w g. rewrite update_change. set w' := M^T *m w. set g' := M^T *m g. set t := invmx St *m (H *m (D *m g')). set y := H^T *m t.
  have E0 : (w^T *m (M *m (D - D *m H^T *m invmx St *m H *m D) *m M^T) *m g) 0 0 = (w'^T *m D *m (g' - y)) 0 0.
  { by rewrite form_algebra. }
  rewrite E0. have F := L w' (g' - y).
  have Pw0 := proj2 HP w'. have Pg0 := proj2 HP g'. have Py0 := proj2 HP y.
  have Q1 : Rle (Rmult (Rminus 1 a) (qf P y)) ((y^T *m D *m g') 0 0).
  { have -> : (y^T *m D *m g') 0 0 = qf St t.
    { have T : St *m t = H *m (D *m g') by rewrite /t mulKVmx. by rewrite /qf -[in RHS]mulmxA T /y trmx_mul trmxK !mulmxA. }
    apply: Rle_trans (qf_Pt y) _. exact: qf_St. }
  have Q2 := root_step A0 A1 Py0 Pg0 Q1 (L y g').
  set r := Rdiv a (Rminus 1 a) in Q2 *. have r0 : Rle 0 r by apply: Rmult_le_pos => //; left; apply: Rinv_0_lt_compat; lra.
  have Q3 : Rle (qf P (g' - y)) (Rmult (Rmult (Rplus 1 r) (Rplus 1 r)) (qf P g')).
  { apply: qf_root => //. have -> : - y = (Ropp 1) *: y by rewrite scaleNr scale1r. rewrite qf_scale. lra. }
  have R1 : Rmult a (Rplus 1 r) = r by rewrite /r; field; lra.
  apply: Rle_trans F _. have J1 := qf_M w. have J2 := qf_M g. rewrite -/w' in J1. rewrite -/g' in J2.
  have Z : Rle (Rmult (qf P w') (qf P (g' - y))) (Rmult (qf J w) (Rmult (Rmult (Rplus 1 r) (Rplus 1 r)) (qf J g))).
  { apply: Rmult_le_compat => //; first exact: (proj2 HP). apply: Rle_trans Q3 _. apply: Rmult_le_compat_l => //. exact: Rle_0_sqr. }
  have := Rmult_le_compat_l _ _ _ (Rle_0_sqr a) Z. rewrite /Rsqr => Z2. apply: Rle_trans Z2 _. right. rewrite -{3 4}R1. ring.
Qed.
Lemma gain_drift2 (nu : 'cV[R]_m) : Rle 0 s -> within (Rmult s s) St nu ->
  within (Rmult (Rmult a a) (Rdiv (Rmult s s) (Rminus 1 a))) J ((Kt - K) *m nu).
Proof.
  move=> S0 W v. set y := invmx St *m nu. set g := H^T *m y. set w := M^T *m v.
  have Ny : nu = St *m y by rewrite /y mulKVmx.
  have -> : (v^T *m ((Kt - K) *m nu)) 0 0 = (w^T *m D *m g) 0 0.
  { rewrite gains3 /w trmx_mul trmxK /g /y !mulmxA. done. }
  apply: Rle_trans (L w g) _.
  have Qg : Rle (qf Pt g) (Rmult s s).
  { have T := qf_St y. rewrite -/g in T. have X := W y. have E : (y^T *m nu) 0 0 = qf St y by rewrite Ny mulmxA. rewrite E in X.
    move: (qf St y) (qf Pt g) T X => q p T X.
    case: (Rle_lt_dec q 0) => Q1; first by have := Rle_0_sqr s; rewrite /Rsqr; toR; lra.
    apply: Rle_trans T _. by apply: (Rmult_le_reg_r q). }
  have G1 := qf_Pt g.
  have Pg : Rle (qf P g) (Rdiv (Rmult s s) (Rminus 1 a)).
  { apply: (Rmult_le_reg_l (Rminus 1 a)); first lra. have -> : Rmult (Rminus 1 a) (Rdiv (Rmult s s) (Rminus 1 a)) = Rmult s s by field; lra. lra. }
  have Pw := qf_M v. rewrite -/w in Pw.
  have Pw0 := proj2 HP w. have Pg0 := proj2 HP g.
  have Mm := Rmult_le_compat _ _ _ _ Pw0 Pg0 Pw Pg. have AA := Rle_0_sqr a. rewrite /Rsqr in AA.
  have := Rmult_le_compat_l _ _ _ AA Mm. lra.
Qed.
End Update.

(** ** One call *)
Lemma call_alike n (o : op n) d a (x y x' y' : 'cV[R]_n) (P1 P2 P1' P2' : 'M[R]_n) :
  Rle 0 a -> Rle a (Rdiv 1 2) -> Rle 0 d -> valid o -> psd P2 -> (if o is Predict Phi Q then loewner (d *: (Phi *m P2 *m Phi^T)) Q else True) ->
  alike a P2 P1 ->
  call o (DV x) (DM P1) = Ret (true, (DV x', DM P1')) -> call o (DV y) (DM P2) = Ret (true, (DV y', DM P2')) ->
  alike (if is_predict o then Rdiv a (Rplus 1 d) else Rplus a (Rmult 2 (Rmult a a))) P2' P1'.
Proof.
  move=> A A1 D V HP X L. have a1 : Rlt a 1 by lra.
  case: o V X => [Phi Q|m z H Rk] /= V X.
  - rewrite !predict_ok => /Ret_inj [_ _ <-] /Ret_inj [_ _ <-] w g.
    have -> : Phi *m P1 *m Phi^T + Q - (Phi *m P2 *m Phi^T + Q) = Phi *m (P1 - P2) *m Phi^T by rewrite mulmxBr mulmxBl; mx_abel.
    have -> : w^T *m (Phi *m (P1 - P2) *m Phi^T) *m g = (Phi^T *m w)^T *m (P1 - P2) *m (Phi^T *m g) by rewrite trmx_mul trmxK !mulmxA.
    apply: Rle_trans (L _ _) _. set w' := Phi^T *m w. set g' := Phi^T *m g.
    have B v : Rle (qf P2 (Phi^T *m v)) (Rdiv (qf (Phi *m P2 *m Phi^T + Q) v) (Rplus 1 d)).
    { rewrite qfD. have := X v. rewrite qfZ qf_congr => Xv. apply: (Rmult_le_reg_l (Rplus 1 d)); first lra.
      have F (u : R) : Rmult (Rplus 1 d) (Rdiv u (Rplus 1 d)) = u by field; lra. rewrite F. lra. }
    have N v : Rle 0 (qf P2 (Phi^T *m v)) by exact: (proj2 HP).
    have := Rmult_le_compat_l _ _ _ (Rle_0_sqr a) (Rmult_le_compat _ _ _ _ (N w) (N g) (B w) (B g)). rewrite /Rsqr -/w' -/g' => Z. apply: Rle_trans Z _. right. field. lra.
  - move=> /update_inv [U1 _ ->] /update_inv [U2 _ ->].
    have HJ : psd (joseph P2 H Rk (gain P2 H Rk)) by apply: psdD; apply: psd_congr => //; exact: pd_psd.
    apply: alike_le (update_alike HP V L A a1 U2 U1) => //; last exact: frac_le.
    apply: Rmult_le_pos => //. left. apply: Rinv_0_lt_compat. lra.
Qed.
Lemma call_drift2 n (o : op n) d a s p (x y x' y' : 'cV[R]_n) (P1 P2 P1' P2' : 'M[R]_n) :
  Rlt 0 d -> Rle 0 a -> Rle a (Rdiv 1 2) -> Rle 0 s -> Rle 0 p -> valid o -> psd P2 ->
  (if o is Predict Phi Q then loewner (d *: (Phi *m P2 *m Phi^T)) Q else True) ->
  (if o is Update _ z H Rk then within (Rmult s s) (H *m P1 *m H^T + Rk) (z - H *m x) else True) ->
  alike a P2 P1 -> within (Rmult p p) P2 (x - y) ->
  call o (DV x) (DM P1) = Ret (true, (DV x', DM P1')) -> call o (DV y) (DM P2) = Ret (true, (DV y', DM P2')) ->
  let q := if is_predict o then Rdiv p (sqrt (Rplus 1 d)) else Rplus p (Rmult (Rmult 2 a) s) in within (Rmult q q) P2' (x' - y').
Proof.
  move=> D A A2 S0 P0 V HP2 X W L U. have [R1 R2] := root_facts D. have pp : Rle 0 (Rmult p p) by exact: Rmult_le_pos.
  case: o V X W => [Phi Q|m z H Rk] /= V X W.
  - rewrite !predict_ok => /Ret_inj [_ <- _] /Ret_inj [_ <- <-]. rewrite -mulmxBr => v.
    rewrite qfD. have -> : (v^T *m (Phi *m (x - y))) 0 0 = ((Phi^T *m v)^T *m (x - y)) 0 0 by rewrite trmx_mul trmxK mulmxA.
    have Bv := U (Phi^T *m v). rewrite -qf_congr in Bv. have := X v. rewrite qfZ => Xv.
    have -> : Rmult (Rdiv p (sqrt (Rplus 1 d))) (Rdiv p (sqrt (Rplus 1 d))) = Rdiv (Rmult p p) (Rplus 1 d) by rewrite -{3}R2; field; lra.
    apply: within_r => //. lra.
  - move=> /update_inv [U1 -> _] /update_inv [U2 -> ->]. set K := gain P2 H Rk. set Kt := gain P1 H Rk.
    have -> : x + Kt *m (z - H *m x) - (y + K *m (z - H *m y)) = (1%:M - K *m H) *m (x - y) + (Kt - K) *m (z - H *m x).
    { rewrite !mulmxBl mul1mx !mulmxBr !mulmxA. mx_abel. }
    have HJ : psd (joseph P2 H Rk K) by apply: psdD; apply: psd_congr => //; exact: pd_psd.
    have a1 : Rlt a 1 by lra. have as0 : Rle 0 (Rmult (Rmult 2 a) s) by apply: Rmult_le_pos => //; lra.
    apply: within_add => //.
    + rewrite /joseph. apply: within_mul => //. apply: psd_congr. exact: pd_psd.
    + apply: within_le (gain_drift2 HP2 V L A a1 U2 U1 S0 W) => //.
      have ss : Rle 0 (Rmult s s) by exact: Rmult_le_pos. have aa : Rle 0 (Rmult a a) by exact: Rmult_le_pos.
      have I : Rle (Rdiv (Rmult s s) (Rminus 1 a)) (Rmult 2 (Rmult s s)).
      { apply: (Rmult_le_reg_l (Rminus 1 a)); first lra. have -> : Rmult (Rminus 1 a) (Rdiv (Rmult s s) (Rminus 1 a)) = Rmult s s by field; lra.
        have : Rle (Rmult 1 (Rmult s s)) (Rmult (Rmult 2 (Rminus 1 a)) (Rmult s s)) by apply: Rmult_le_compat_r => //; lra. lra. }
      have := Rmult_le_compat_l _ _ _ aa I. have := Rmult_le_pos _ _ aa ss. lra.
Qed.

(** ** Runs *)
Lemma lopsided_bound n (h : seq (op n)) d e f s m : Rlt 0 d -> Rle 0 e -> Rle 0 f -> Rle 0 s ->
  let K := limit d (Rmult 2 e) m in Rle K (Rdiv 1 2) -> Rle (Rmult K K) e ->
  let d' := Rminus (sqrt (Rplus 1 d)) 1 in let g := Rmult 2 (Rplus (Rmult K s) f) in
  forall k p (x y x' y' : 'cV[R]_n) (P1 P2 P1' P2' : 'M[R]_n),
  (k <= m)%N -> all_valid h -> psd P2 -> excited d h P2 -> spaced m k h ->
  alike (level d (Rmult 2 e) m k) P2 P1 -> Rle 0 p -> Rle p (level d' (Rdiv g 2) m k) -> within (Rmult p p) P2 (x - y) ->
  lopsided e f s h x P1 x' P1' -> run h (DV y) (DM P2) = Ret (true, (DV y', DM P2')) ->
  [/\ psd P2', alike K P2' P1' & within (Rmult (limit d' (Rdiv g 2) m) (limit d' (Rdiv g 2) m)) P2' (x' - y')].
Proof.
  move=> D E F S0 K K12 KE d' g. have D0 : Rle 0 d by lra. have [R1 R2] := root_facts D. have E2 : Rle 0 (Rmult 2 e) by lra.
  have D'0 : Rlt 0 d' by rewrite /d'; lra.
  have Lim0 : Rle 0 K by have := limit_ge m D E2; rewrite -/K; lra.
  have g0 : Rle 0 g. { rewrite /g. have := Rmult_le_pos _ _ Lim0 S0. lra. } have G2 : Rle 0 (Rdiv g 2) by lra.
  elim: h => [|o h IH] k p x y x' y' P1 P2 P1' P2' KM /=.
  - move=> _ HP2 _ _ W Pp Pl U [-> ->] /Ret_inj [_ <- <-]. split=> //; first by apply: alike_le W => //; [exact: level_ge0|exact: level_le].
    apply: within_le U => //. apply: sq_le => //. apply: Rle_trans Pl _. exact: level_le.
  - move=> [V1 V2] HP2 [X1 X2] Sp W Pp Pl U [SU [x1 [x2 [S1 [S1' [C1 BE FE DI]]]]]]. have [y2 [S2 [F2 HS2]]] := call_valid y V1 HP2.
    have LE : Rle (level d (Rmult 2 e) m k) K := level_le m k D E2. have LG := level_ge0 D E2 KM.
    have L2 : Rle (level d (Rmult 2 e) m k) (Rdiv 1 2) by lra.
    have W2 := call_alike LG L2 D0 V1 HP2 X1 W C1 F2.
    have U2 := call_drift2 D LG L2 S0 Pp V1 HP2 X1 SU W U C1 F2.
    have LL : Rle (Rmult (level d (Rmult 2 e) m k) (level d (Rmult 2 e) m k)) e by apply: Rle_trans KE; exact: sq_le.
    have f2 : Rle 0 (Rmult 2 f) by lra. have ff : Rle 0 (Rmult f f) by exact: Rmult_le_pos.
    rewrite F2 /=. move: (X2 _ _ _ F2) => X3. move: Sp U2 W2.
    have XE : x2 - y2 = (x1 - y2) + (x2 - x1) by mx_abel.
    have LD : Rle (Rdiv (level d (Rmult 2 e) m k) (Rplus 1 d)) 1 by have := div_le_self LG D0; lra.
    have LD0 := div_pos LG D0.
    case: o V1 X1 X2 SU C1 F2 => [Phi Q|m' z H Rk] V1 X1 X2 SU C1 F2 /= Sp U2 W2.
    + have W3 := alike_trans HS2 LD0 LD E W2 BE.
      have FE2 : within (Rmult (Rmult 2 f) (Rmult 2 f)) S2 (x2 - x1).
      { apply: within_le (within_loewner ff (proj2 (alike_between LD0 HS2 W2)) FE) => //. have := Rmult_le_compat_l _ _ _ ff LD. lra. }
      have W4 : alike (level d (Rmult 2 e) m m) S2 S1' by apply: alike_le W3 => //; [lra|have := level_predict m k D E2; lra].
      have q0 : Rle 0 (Rdiv p (sqrt (Rplus 1 d))) by apply: Rmult_le_pos => //; left; apply: Rinv_0_lt_compat; lra.
      have U3 := within_add HS2 q0 f2 U2 FE2. rewrite -XE in U3.
      apply: (IH m _ _ _ _ _ _ _ _ _ (leqnn m) V2 HS2 X3 Sp W4 _ _ U3 DI); first lra.
      have Lr := level_root D g0 KM. rewrite -/d' in Lr.
      have Pl' : Rle (Rdiv p (sqrt (Rplus 1 d))) (Rdiv (level d' (Rdiv g 2) m k) (sqrt (Rplus 1 d))). { apply: Rmult_le_compat_r => //. left; apply: Rinv_0_lt_compat; lra. }
      have gf : Rle (Rmult 2 f) g by rewrite /g; have := Rmult_le_pos _ _ Lim0 S0; lra. lra.
    + case: k KM Sp W W2 LE LG Pl L2 U2 LL LD LD0 => [|k] KM //= Sp W W2 LE LG Pl L2 U2 LL LD LD0. set l := level d (Rmult 2 e) m k.+1 in LL LE LG L2 W2 U2 *.
      have ll0 : Rle 0 (Rmult l l) by exact: Rle_0_sqr. have b0 : Rle 0 (Rplus l (Rmult 2 (Rmult l l))) by lra.
      have b1 : Rle (Rplus l (Rmult 2 (Rmult l l))) 1 by have := Rmult_le_compat_l _ _ _ LG L2; lra.
      have W3 := alike_trans HS2 b0 b1 E W2 BE.
      have FE2 : within (Rmult (Rmult 2 f) (Rmult 2 f)) S2 (x2 - x1).
      { apply: within_le (within_loewner ff (proj2 (alike_between b0 HS2 W2)) FE) => //. have := Rmult_le_compat_l _ _ _ ff b1. lra. }
      have W4 : alike (level d (Rmult 2 e) m k) S2 S1'. { apply: alike_le W3 => //; first lra. have := level_update d (Rmult 2 e) m k. rewrite -/l. lra. }
      have q0 : Rle 0 (Rplus p (Rmult (Rmult 2 l) s)) by have := Rmult_le_pos _ _ LG S0; lra.
      have U3 := within_add HS2 q0 f2 U2 FE2. rewrite -XE in U3.
      apply: (IH k _ _ _ _ _ _ _ _ _ (ltnW KM) V2 HS2 X3 Sp W4 _ _ U3 DI); first lra.
      have := level_update d' (Rdiv g 2) m k. have := Rmult_le_compat_r _ _ _ S0 LE.
      have Eg : g = Rmult 2 (Rplus (Rmult K s) f) := erefl. lra.
Qed.
Lemma lopsided_stay n (h : seq (op n)) d e f s m (x x' y' : 'cV[R]_n) (P P1' P2' : 'M[R]_n) : Rlt 0 d -> Rle 0 e -> Rle 0 f -> Rle 0 s ->
  let K := Rmult (Rmult (Rmult 4 e) (Rplus (INR m) 1)) (Rplus 1 (Rinv d)) in
  let C := Rmult (Rmult (Rmult 4 (Rplus (Rmult K s) f)) (Rplus (INR m) 1)) (Rplus 1 (Rinv d)) in
  Rle K (Rdiv 1 2) -> Rle (Rmult K K) e -> all_valid h -> psd P -> excited d h P -> spaced m m h ->
  lopsided e f s h x P x' P1' -> run h (DV x) (DM P) = Ret (true, (DV y', DM P2')) ->
  alike K P2' P1' /\ within (Rmult C C) P2' (x' - y').
Proof.
  move=> D E F S0 K C K12 KE V HP X Sp U RU. have E2 : Rle 0 (Rmult 2 e) by lra.
  have KL : K = limit d (Rmult 2 e) m by rewrite /K /limit; ring.
  have Lim0 : Rle 0 K by have := limit_ge m D E2; rewrite -KL; lra. have [R1 R2] := root_facts D.
  have g0 : Rle 0 (Rmult 2 (Rplus (Rmult K s) f)) by have := Rmult_le_pos _ _ Lim0 S0; lra. have g2 : Rle 0 (Rdiv (Rmult 2 (Rplus (Rmult K s) f)) 2) by lra.
  have D' : Rlt 0 (Rminus (sqrt (Rplus 1 d)) 1) by lra.
  have := @lopsided_bound n h d e f s m D E F S0. cbv zeta. rewrite -KL => /(_ K12 KE m 0 x x x' y' P P P1' P2' (leqnn m) V HP X Sp) LB.
  have [||||H1 H2 H3] := LB _ _ _ _ U RU.
  - exact: alike_refl.
  - exact: Rle_refl.
  - exact: level_ge0.
  - rewrite subrr. apply: within0 => //. rewrite Rmult_0_l. exact: Rle_refl.
  split=> //. apply: within_le H3 => //. apply: sq_le; first by have := limit_ge m D' g2; lra.
  apply: Rle_trans (root_limit m D g0) _. rewrite /C. right. ring.
Qed.
(** Entries. *)
Lemma delta_entry n (A : 'M[R]_n) i j : ((delta_mx i (0 : 'I_1))^T *m A *m delta_mx j (0 : 'I_1)) 0 0 = A i j.
Proof. rewrite trmx_delta -rowE -colE !mxE. done. Qed.
Lemma alike_entry n (A B : 'M[R]_n) e i j : psd A -> Rle 0 e -> alike e A B -> Rle (Rabs (Rminus (B i j) (A i j))) (Rmult e (sqrt (Rmult (A i i) (A j j)))).
Proof.
  move=> HA E L. have AA k : Rle 0 (A k k) by have := proj2 HA (delta_mx k 0); rewrite /qf delta_entry.
  have P := Rmult_le_pos _ _ (AA i) (AA j). apply: abs_sq; first by apply: Rmult_le_pos => //; exact: sqrt_pos.
  have := L (delta_mx i 0) (delta_mx j 0). rewrite /qf !delta_entry. have -> : (B - A) i j = Rminus (B i j) (A i j) by rewrite !mxE.
  have Q := sqrt_sqrt _ P. set q := sqrt _ in Q *. move=> Z. apply: Rle_trans Z _. rewrite -Q. right. toR. ring.
Qed.
Lemma alike_asymmetry n (A B : 'M[R]_n) e : psd A -> Rle 0 e -> alike e A B -> forall i j,
  Rle (Rabs (Rminus (B i j) (B j i))) (Rmult (Rmult 2 e) (sqrt (Rmult (A i i) (A j j)))).
Proof.
  move=> HA E L i j. have E1 := alike_entry i j HA E L. have E2 := alike_entry j i HA E L. rewrite (Rmult_comm (A j j)) in E2.
  have S : A i j = A j i by rewrite -[in LHS](proj1 HA) mxE.
  have T := Rabs_triang (Rminus (B i j) (A i j)) (Ropp (Rminus (B j i) (A j i))). rewrite Rabs_Ropp in T.
  have -> : Rminus (B i j) (B j i) = Rplus (Rminus (B i j) (A i j)) (Ropp (Rminus (B j i) (A j i))) by rewrite S; ring. lra.
Qed.
