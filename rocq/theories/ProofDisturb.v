(** Proofs about filters whose every call is off by a little. *)
From Coq Require Import Reals Lra Psatz.
From mathcomp Require Import all_ssreflect all_algebra.
From Verif Require Import Base BaseMx ModelEigen ModelKalman SpecKalman SpecFilter SpecSteady SpecDisturb ProofMx ProofKalman ProofKalman2 ProofKalman3 ProofKalman4 ProofKalman5 ProofSteady.
Set Implicit Arguments.
Unset Strict Implicit.
Unset Printing Implicit Defensive.
Import GRing.Theory.
Local Open Scope ring_scope.
Local Open Scope outcome_scope.

Lemma ratio_low (a d p q s : R) : Rle 0 a -> Rle 0 d -> Rle (Rmult d p) q -> Rle (Rmult (Rminus 1 a) p) s ->
  Rle (Rmult (Rminus 1 (Rdiv a (Rplus 1 d))) (Rplus p q)) (Rplus s q).
Proof.
  move=> A D PQ S.
  have -> : Rmult (Rminus 1 (Rdiv a (Rplus 1 d))) (Rplus p q) = Rminus (Rplus (Rmult (Rminus 1 a) p) q) (Rmult (Rdiv a (Rplus 1 d)) (Rminus q (Rmult d p))).
  { field. lra. }
  have : Rle 0 (Rmult (Rdiv a (Rplus 1 d)) (Rminus q (Rmult d p))).
  { apply: Rmult_le_pos; last lra. exact: div_pos. }
  lra.
Qed.
Lemma loewner_scale n (A B : 'M[R]_n) (a b : R) : Rlt 0 a -> loewner (a *: A) (b *: B) -> loewner A (Rdiv b a *: B).
Proof.
  move=> Ha L v. have := L v. rewrite !qfZ => E. apply: (Rmult_le_reg_l a) => //.
  have -> : Rmult a (Rmult (Rdiv b a) (qf B v)) = Rmult b (qf B v) by field; lra. exact: E.
Qed.
(** The excess after a call. *)
Definition after n (d : R) (o : op n) (a : R) : R := if is_predict o then Rdiv a (Rplus 1 d) else a.
Lemma after_ge0 n d (o : op n) a : Rle 0 a -> Rle 0 d -> Rle 0 (after d o a).
Proof. rewrite /after. case: (is_predict o) => // A D. exact: div_pos. Qed.
Lemma div_le_self (a d : R) : Rle 0 a -> Rle 0 d -> Rle (Rdiv a (Rplus 1 d)) a.
Proof.
  move=> A D. apply: (Rmult_le_reg_r (Rplus 1 d)); first lra.
  have -> : Rmult (Rdiv a (Rplus 1 d)) (Rplus 1 d) = a by field; lra. nra.
Qed.
Lemma after_le n d (o : op n) a : Rle 0 a -> Rle 0 d -> Rle (after d o a) a.
Proof. rewrite /after. case: (is_predict o) => A D; [exact: div_le_self|exact: Rle_refl]. Qed.
Lemma call_between n (o : op n) d a (x y x' y' : 'cV[R]_n) (P1 P2 P1' P2' : 'M[R]_n) :
  Rle 0 a -> Rlt a 1 -> Rle 0 d -> valid o -> psd P1 -> psd P2 -> (if o is Predict Phi Q then loewner (d *: (Phi *m P2 *m Phi^T)) Q else True) ->
  between a P2 P1 ->
  call o (DV x) (DM P1) = Ret (true, (DV x', DM P1')) -> call o (DV y) (DM P2) = Ret (true, (DV y', DM P2')) ->
  between (after d o a) P2' P1'.
Proof.
  move=> A A1 D V HP1 HP2 X [W1 W2] E1 E2. split; last exact: (call_ratio A D V HP1 X W2 E1 E2).
  move: W1 W2 V X E1 E2. case: o => [Phi Q|m z H Rk] /= W1 W2 V X E1 E2; rewrite /after /=.
  - move: E1 E2. rewrite !predict_ok => /Ret_inj [_ _ <-] /Ret_inj [_ _ <-] v. rewrite qfZ !qfD. have := X v. rewrite qfZ => Xv.
    apply: ratio_low => //. have := W1 (Phi^T *m v). by rewrite qfZ -!qf_congr.
  - have HB : Rlt 0 (Rminus 1 a) by lra.
    have L : loewner P2 (Rplus 1 (Rdiv a (Rminus 1 a)) *: P1).
    { have := loewner_scale (b := 1) HB. move/(_ _ P2 P1). rewrite scale1r => /(_ W1).
      have -> : Rdiv 1 (Rminus 1 a) = Rplus 1 (Rdiv a (Rminus 1 a)) by field; lra. exact. }
    have A2 : Rle 0 (Rdiv a (Rminus 1 a)) by apply: Rmult_le_pos => //; left; apply: Rinv_0_lt_compat.
    have := @call_ratio n (Update z H Rk) 0 _ y x y' x' P2 P1 P2' P1' A2 (Rle_refl 0) V HP2 I L E2 E1. rewrite /= => C v.
    have := C v. rewrite !qfZ => Cv. apply: (Rmult_le_reg_l (Rinv (Rminus 1 a))); first exact: Rinv_0_lt_compat.
    have -> : Rmult (Rinv (Rminus 1 a)) (Rmult (Rminus 1 a) (qf P2' v)) = qf P2' v by field; lra.
    have -> : Rmult (Rinv (Rminus 1 a)) (qf P1' v) = Rmult (Rplus 1 (Rdiv a (Rminus 1 a))) (qf P1' v) by field; lra. exact: Cv.
Qed.
Lemma between_trans n (a e : R) (A B C : 'M[R]_n) : psd A -> Rle 0 a -> Rle a 1 -> Rle 0 e -> Rle e 1 ->
  between a A B -> between e B C -> between (Rplus a (Rmult 2 e)) A C.
Proof.
  move=> [_ HA] A0 A1 E0 E1 [L1 L2] [M1 M2]. split=> v; have Ha := HA v; have l1 := L1 v; have l2 := L2 v; have m1 := M1 v; have m2 := M2 v;
    move: l1 l2 m1 m2; rewrite !qfZ; move: (qf A v) (qf B v) (qf C v) Ha => p q r Hp l1 l2 m1 m2.
  - have : Rle (Rmult (Rminus 1 e) (Rmult (Rminus 1 a) p)) (Rmult (Rminus 1 e) q) by apply: Rmult_le_compat_l => //; lra.
    have : Rle 0 (Rmult (Rmult e a) p) by apply: Rmult_le_pos => //; apply: Rmult_le_pos. have := Rmult_le_pos _ _ E0 Hp. lra.
  - have : Rle (Rmult (Rplus 1 e) q) (Rmult (Rplus 1 e) (Rmult (Rplus 1 a) p)) by apply: Rmult_le_compat_l => //; lra.
    have EP := Rmult_le_pos _ _ E0 Hp. have : Rle (Rmult a (Rmult e p)) (Rmult 1 (Rmult e p)) by apply: Rmult_le_compat_r. lra.
Qed.
Lemma between_psd n (a : R) (A B : 'M[R]_n) : Rle a 1 -> psd A -> symmetric B -> between a A B -> psd B.
Proof.
  move=> A1 [_ HA] SB [L _]. split=> // v. have := L v. rewrite qfZ. have := HA v => H. have : Rle 0 (Rmult (Rminus 1 a) (qf A v)) by apply: Rmult_le_pos => //; lra. lra.
Qed.
Lemma between_le n (a b : R) (A B : 'M[R]_n) : psd A -> Rle a b -> between a A B -> between b A B.
Proof.
  move=> [_ HA] L [L1 L2]. split=> v; have H := HA v; have l1 := L1 v; have l2 := L2 v; move: l1 l2; rewrite !qfZ; move: (qf A v) (qf B v) H => p q H l1 l2;
  have := Rmult_le_compat_r _ _ _ H L; lra.
Qed.

(** The largest excess: [base] after a prediction, and [2e] more after each
    measurement. *)
Definition base (d e : R) (m : nat) : R := Rdiv (Rmult (Rmult 2 e) (Rplus (Rplus (INR m) 1) d)) d.
Definition level (d e : R) (m k : nat) : R := Rplus (base d e m) (Rmult (Rmult 2 e) (Rminus (INR m) (INR k))).
Definition limit (d e : R) (m : nat) : R := Rmult (Rmult (Rmult 2 e) (Rplus (INR m) 1)) (Rplus 1 (Rinv d)).
Lemma level_top d e m : Rlt 0 d -> level d e m 0 = limit d e m.
Proof. move=> D. rewrite /level /base /limit /=. field. lra. Qed.
Lemma level_le d e m k : Rlt 0 d -> Rle 0 e -> Rle (level d e m k) (limit d e m).
Proof.
  move=> D E. rewrite -level_top // /level /=. have := Rmult_le_pos _ _ E (pos_INR k). lra.
Qed.
Lemma base_ge0 d e m : Rlt 0 d -> Rle 0 e -> Rle 0 (base d e m).
Proof.
  move=> D E. rewrite /base. have M := pos_INR m. apply: Rmult_le_pos; last by left; apply: Rinv_0_lt_compat.
  apply: Rmult_le_pos; lra.
Qed.
Lemma level_ge0 d e m k : Rlt 0 d -> Rle 0 e -> (k <= m)%N -> Rle 0 (level d e m k).
Proof.
  move=> D E /leP L. rewrite /level. have := base_ge0 m D E. have := le_INR _ _ L => I. have : Rle 0 (Rmult (Rmult 2 e) (Rminus (INR m) (INR k))) by apply: Rmult_le_pos; lra. lra.
Qed.
Lemma level_update d e m k : Rplus (level d e m k.+1) (Rmult 2 e) = level d e m k.
Proof. rewrite /level S_INR. ring. Qed.
Lemma level_predict d e m k : Rlt 0 d -> Rle 0 e -> Rle (Rplus (Rdiv (level d e m k) (Rplus 1 d)) (Rmult 2 e)) (level d e m m).
Proof.
  move=> D E. apply: (Rmult_le_reg_r (Rplus 1 d)); first lra.
  have -> : Rmult (Rplus (Rdiv (level d e m k) (Rplus 1 d)) (Rmult 2 e)) (Rplus 1 d) = Rplus (level d e m k) (Rmult (Rmult 2 e) (Rplus 1 d)) by field; lra.
  have -> : Rmult (level d e m m) (Rplus 1 d) = Rplus (limit d e m) (Rmult (Rmult 2 e) (Rplus 1 d)).
  { rewrite /level /base /limit. field. lra. }
  have := level_le m k D E. lra.
Qed.

Lemma limit_ge d e m : Rlt 0 d -> Rle 0 e -> Rle (Rmult 2 e) (limit d e m).
Proof.
  move=> D E. rewrite /limit. have M := pos_INR m. have I : Rlt 0 (Rinv d) by apply: Rinv_0_lt_compat.
  have : Rle (Rmult (Rmult (Rmult 2 e) 1) 1) (Rmult (Rmult (Rmult 2 e) (Rplus (INR m) 1)) (Rplus 1 (Rinv d))).
  { apply: Rmult_le_compat; try lra. apply: Rmult_le_compat_l; lra. } lra.
Qed.

(** ** Covariances *)
Lemma disturbed_bound n (h : seq (op n)) d e f m : Rlt 0 d -> Rle 0 e ->
  forall a k (x y x' y' : 'cV[R]_n) (P1 P2 P1' P2' : 'M[R]_n),
  (k <= m)%N -> Rle 0 a -> Rlt (Rplus a (limit d e m)) 1 -> all_valid h -> psd P1 -> psd P2 -> excited d h P2 -> spaced m k h ->
  between (Rplus a (level d e m k)) P2 P1 ->
  disturbed e f h x P1 x' P1' -> run h (DV y) (DM P2) = Ret (true, (DV y', DM P2')) ->
  psd P1' /\ between (Rplus (Rdiv a (pow (Rplus 1 d) (predictions h))) (limit d e m)) P2' P1'.
Proof.
  move=> D E. have D0 : Rle 0 d by lra. elim: h => [|o h IH] a k x y x' y' P1 P2 P1' P2' KM A A1 /=.
  - move=> _ HP1 HP2 _ _ W [_ ->] /Ret_inj [_ _ <-]. split=> //. rewrite /= /Rdiv Rinv_1 Rmult_1_r. apply: between_le W => //. have := level_le m k D E. lra.
  - move=> [V1 V2] HP1 HP2 [X1 X2] Sp W [x1 [x2 [S1 [S1' [C1 SS BE _ DI]]]]]. have [y2 [S2 [F2 HS2]]] := call_valid y V1 HP2.
    have [x3 [P3 [C3 HS1]]] := call_valid x V1 HP1. move: C3. rewrite C1 => /Ret_inj [_ _ E3]. rewrite -{}E3 {P3} in HS1.
    have LE := level_le m k D E. have LG := level_ge0 D E KM.
    have A2 : Rle 0 (Rplus a (level d e m k)) by lra. have A3 : Rlt (Rplus a (level d e m k)) 1 by lra.
    have W2 := call_between A2 A3 D0 V1 HP1 HP2 X1 W C1 F2.
    have B0 := limit_ge m D E. have B1 : Rle e 1 by lra.
    have G1 : Rle 0 (after d o (Rplus a (level d e m k))) by exact: after_ge0.
    have G2 : Rle (after d o (Rplus a (level d e m k))) 1 by have := after_le o A2 D0; lra.
    have W3 := between_trans HS2 G1 G2 E B1 W2 BE. have HS3 : psd S1'. { apply: between_psd B1 HS1 SS BE. }
    rewrite F2 /=. move: (X2 _ _ _ F2) => X3. move: W3 Sp. rewrite /after /predictions /= -/(predictions h).
    case: o V1 X1 X2 C1 F2 W2 G1 G2 => [Phi Q|m' z H Rk] V1 X1 X2 C1 F2 W2 G1 G2 /= W3 Sp.
    + have W4 : between (Rplus (Rdiv a (Rplus 1 d)) (level d e m m)) S2 S1'.
      { apply: between_le W3 => //. have L := level_predict m k D E.
        have -> : Rdiv (Rplus a (level d e m k)) (Rplus 1 d) = Rplus (Rdiv a (Rplus 1 d)) (Rdiv (level d e m k) (Rplus 1 d)) by field; lra. lra. }
      have A4 := div_pos A D0. have A5 : Rlt (Rplus (Rdiv a (Rplus 1 d)) (limit d e m)) 1 by have := div_le_self A D0; lra.
      move=> RU. have Z := IH _ m _ _ _ _ _ _ _ _ (leqnn m) A4 A5 V2 HS3 HS2 X3 Sp W4 DI RU. rewrite div_pow in Z. exact: Z. exact: D0.
    + case: k KM Sp W W2 W3 LE LG A2 A3 G1 G2 => [|k] KM //= Sp W W2 W3 LE LG A2 A3 G1 G2 RU.
      have W4 : between (Rplus a (level d e m k)) S2 S1'. { apply: between_le W3 => //. have := level_update d e m k. lra. }
      exact: (IH a k _ _ _ _ _ _ _ _ (ltnW KM) A A1 V2 HS3 HS2 X3 Sp W4 DI RU).
Qed.
