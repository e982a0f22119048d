(** Rounding errors of long histories of filter calls. *)
From Coq Require Import Reals Lra Psatz.
From Flocq Require Import Core.Raux Core.Zaux.
From mathcomp Require Import all_ssreflect all_algebra.
From Verif Require Import Base BaseMx ModelEigen ModelKalman ModelDate ModelStrapdownFloat ModelFilterFloat ModelUpdateFloat ModelLongFloat SpecFloatOps SpecKalman SpecFilter SpecSteady
  SpecFilterFloat SpecUpdateFloat SpecDisturb SpecLopsided SpecLongFloat ProofMx ProofKalman ProofKalman2 ProofKalman4 ProofKalman5 ProofStrapdownFloat ProofStrapdownFloat2
  ProofFilterFloat1 ProofFilterFloat ProofUpdateFloat ProofSteady ProofSteady2 ProofDisturb ProofDisturb2 ProofLopsided.
Set Implicit Arguments.
Unset Strict Implicit.
Unset Printing Implicit Defensive.
Import GRing.Theory.
Local Open Scope ring_scope.

(** ** Entries and forms *)
Lemma sum_const n (a : R) : \sum_(i < n) a = Rmult (INR n) a.
Proof.
  elim: n => [|n IH]; first by rewrite big_ord0 /= Rmult_0_l. rewrite big_ord_recr IH S_INR. have -> : Rmult (Rplus (INR n) 1) a = Rplus (Rmult (INR n) a) a by ring. done.
Qed.
Lemma cauchy n (w : 'cV[R]_n) : Rle (Rmult (\sum_i Rabs (w i 0)) (\sum_i Rabs (w i 0))) (Rmult (INR n) (qf 1%:M w)).
Proof.
  have HP := pd_psd (pd1 n). pose u : 'cV[R]_n := const_mx R1. pose v : 'cV[R]_n := map_mx Rabs w.
  have H := @form_bound n 1%:M 1%:M 1 u v HP (proj1 HP) ltac:(lra).
  have E1 : (u^T *m 1%:M *m v) 0 0 = \sum_i Rabs (w i 0) by rewrite mulmx1 mxE; apply: eq_bigr => i _; rewrite !mxE; exact: Rmult_1_l.
  have E2 : qf 1%:M u = INR n.
  { rewrite /qf mulmx1 mxE -[RHS](Rmult_1_r) -sum_const. apply: eq_bigr => i _. rewrite !mxE. exact: Rmult_1_l. }
  have E3 : qf 1%:M v = qf 1%:M w.
  { rewrite /qf !mulmx1 !mxE. apply: eq_bigr => i _. rewrite !mxE. toR. rewrite -Rabs_mult Rabs_right //. exact: Rle_ge (Rle_0_sqr _). }
  rewrite E1 E2 E3 in H. have := H. move=> {H} H.
  have : Rle (Rmult (\sum_i Rabs (w i 0)) (\sum_i Rabs (w i 0))) (Rmult (Rmult 1 1) (Rmult (INR n) (qf 1%:M w))).
  { apply: H => y; have := proj2 HP y; lra. }
  lra.
Qed.
(** Entries up to [c] make a form up to [n c]. *)
Lemma form_entries n (E : 'M[R]_n) c (w g : 'cV[R]_n) : sized c E ->
  Rle (Rabs ((w^T *m E *m g) 0 0)) (Rmult c (Rmult (\sum_i Rabs (w i 0)) (\sum_i Rabs (g i 0)))).
Proof.
  move=> H. rewrite mxE. apply: Rle_trans (sum_abs _) _. rewrite sum_scale sum_scale. apply: sum_le => j.
  rewrite Rabs_mult -Rmult_assoc. apply: Rmult_le_compat_r; first exact: Rabs_pos.
  rewrite mxE. apply: Rle_trans (sum_abs _) _. rewrite sum_scale. apply: sum_le => i. rewrite mxE. toR. rewrite Rabs_mult Rmult_comm.
  apply: Rmult_le_compat_r; first exact: Rabs_pos. exact: H.
Qed.
Lemma alike_entries n (A B : 'M[R]_n) c l : Rlt 0 l -> Rle 0 c -> (forall w, Rle (Rmult l (qf 1%:M w)) (qf A w)) -> sized c (B - A) ->
  alike (Rdiv (Rmult (INR n) c) l) A B.
Proof.
  move=> L C HA HE w g. have F := form_entries w g HE. set s := \sum_i _ in F. set t := \sum_i _ in F.
  have s2 : Rle (Rmult s s) (Rmult (INR n) (qf 1%:M w)) := cauchy w. have t2 : Rle (Rmult t t) (Rmult (INR n) (qf 1%:M g)) := cauchy g.
  have ss : Rle 0 (Rmult s s) := Rle_0_sqr s. have tt : Rle 0 (Rmult t t) := Rle_0_sqr t.
  have X := sq_le_abs F. apply: Rle_trans X _.
  have qw := HA w. have qg := HA g. have N := pos_INR n.
  have M1 := Rmult_le_compat _ _ _ _ ss tt s2 t2. have cc : Rle 0 (Rmult c c) by exact: Rmult_le_pos.
  have qw0 : Rle 0 (Rmult l (qf 1%:M w)) by apply: Rmult_le_pos; [lra|exact: (proj2 (pd_psd (pd1 n)))].
  have qg0 : Rle 0 (Rmult l (qf 1%:M g)) by apply: Rmult_le_pos; [lra|exact: (proj2 (pd_psd (pd1 n)))].
  have M2 := Rmult_le_compat _ _ _ _ qw0 qg0 qw qg.
  apply: Rle_trans (_ : Rle _ (Rmult (Rmult c c) (Rmult (Rmult (INR n) (qf 1%:M w)) (Rmult (INR n) (qf 1%:M g))))) _.
  - have := Rmult_le_compat_l _ _ _ cc M1. lra.
  - have k0 : Rle 0 (Rmult (Rdiv (Rmult (INR n) c) l) (Rdiv (Rmult (INR n) c) l)) by exact: Rle_0_sqr.
    have := Rmult_le_compat_l _ _ _ k0 M2. move=> Z. apply: Rle_trans Z. right. field. lra.
Qed.
Lemma size_row m k l (A : 'M[R]_(m, k)) (B : 'M[R]_(k, l)) i j a b : Rle 0 b -> Rle (\sum_q Rabs (A i q)) a -> (forall q, Rle (Rabs (B q j)) b) ->
  Rle (size_mul A B i j) (Rplus (Rmult a b) tiny64).
Proof.
  move=> B0 HA HB. rewrite /size_mul mxE [const_mx _ _ _]mxE mxE. apply: Rplus_le_compat_r.
  apply: Rle_trans (_ : Rle _ (\sum_q Rmult (Rabs (A i q)) b)) _.
  - apply: sum_le => q. rewrite !mxE. toR. apply: Rmult_le_compat_l; [exact: Rabs_pos|exact: HB].
  - rewrite (eq_bigr (fun q => Rmult b (Rabs (A i q)))); last by move=> q _; exact: Rmult_comm. rewrite -sum_scale Rmult_comm. exact: Rmult_le_compat_r.
Qed.
Lemma size_col m k l (A : 'M[R]_(m, k)) (B : 'M[R]_(k, l)) i j a b : Rle 0 b -> Rle (\sum_q Rabs (B q j)) a -> (forall q, Rle (Rabs (A i q)) b) ->
  Rle (size_mul A B i j) (Rplus (Rmult b a) tiny64).
Proof.
  move=> B0 HB HA. rewrite /size_mul mxE [const_mx _ _ _]mxE mxE. apply: Rplus_le_compat_r.
  apply: Rle_trans (_ : Rle _ (\sum_q Rmult b (Rabs (B q j)))) _.
  - apply: sum_le => q. rewrite !mxE. toR. apply: Rmult_le_compat_r; [exact: Rabs_pos|exact: HA].
  - rewrite -sum_scale. exact: Rmult_le_compat_l.
Qed.
Lemma size_ge0 m k l (A : 'M[R]_(m, k)) (B : 'M[R]_(k, l)) i j : Rle 0 (size_mul A B i j).
Proof. have := size_mul_tiny A B i j. have := tiny_pos. lra. Qed.
Lemma size_abs m k l (A : 'M[R]_(m, k)) (B : 'M[R]_(k, l)) i j : Rabs (size_mul A B i j) = size_mul A B i j.
Proof. apply: Rabs_right. exact: Rle_ge (size_ge0 A B i j). Qed.
Lemma ord_sum n (H : 'rV[R]_n) i : i = ord0 -> \sum_j Rabs (H i j) = \sum_j Rabs (H 0 j).
Proof. by move=> ->. Qed.

(** ** One prediction *)
Lemma predict_entries r dot n (x : 'cV[R]_n) (P Phi Q : 'M[R]_n) p b : rnd_ok r -> dot_ok dot -> Rle (INR n) 1000000 ->
  sized (Rmult (Rdiv 3 2) p) P -> sized p Q -> (forall i, Rle (\sum_j Rabs (Phi i j)) b) -> Rle 0 b -> Rle tiny64 p -> Rle (Rmult tiny64 b) p ->
  sized (Rmult (Rmult 27 (vN n)) (Rmult p (Rplus 1 (Rmult b b)))) ((filterPredict_f r dot x P Phi Q).2 - (Phi *m P *m Phi^T + Q)).
Proof.
  move=> Hr Hd HN HP HQ HF B0 T1 T2 i j. have T0 := tiny_pos. have [V0 _] := vN_bounds HN.
  have [A _] := near_innov Hr Hd HN (leqnn n) P Phi Q i j. rewrite [(_ - _ : 'M_n) i j]mxE [(- _ : 'M_n) i j]mxE.
  apply: Rle_trans A _. have p0 : Rle 0 p by lra.
  have X1 l : Rle (size_mul Phi P i l) (Rplus (Rmult b (Rmult (Rdiv 3 2) p)) tiny64) by apply: size_row => //; lra.
  have X2 : Rle (size_mul (size_mul Phi P) Phi^T i j) (Rplus (Rmult (Rplus (Rmult b (Rmult (Rdiv 3 2) p)) tiny64) b) tiny64).
  { apply: size_col => [|| l]; last by rewrite size_abs.
    - have := Rmult_le_pos _ _ B0 p0. lra.
    - rewrite (eq_bigr (fun q => Rabs (Phi j q))) // => q _. by rewrite mxE. }
  have X3 : Rle (innov_size P Phi Q i j) (Rmult 3 (Rmult p (Rplus 1 (Rmult b b)))).
  { rewrite /innov_size mxE [map_mx _ _ _ _]mxE. have := HQ i j. move: (Rabs (Q i j)) X2 => a. move: (size_mul _ _ _ _) => c X2 A. toR.
    have := Rmult_le_pos _ _ p0 (Rle_0_sqr b). rewrite /Rsqr. lra. }
  have := Rmult_le_compat_l (Rmult 9 (vN n)) _ _ ltac:(lra) X3. lra.
Qed.

(** ** One measurement *)
Section Scal.
Local Open Scope R_scope.
Variables (p a rho g v t kap : R).
Hypotheses (P0 : 0 < p) (A0 : 0 < a) (Rh0 : 0 < rho) (G0 : 0 <= g) (V0 : 0 < v) (T0 : 0 < t).
Hypotheses (G : p * (a * a) <= g * rho) (T1 : t <= p) (T2 : t <= p * a) (T3 : t * rho <= p * a) (T4 : t * a <= rho) (T5 : t <= rho).
Hypothesis EK : kap * rho = p * a.
Hypothesis VG : 2210 * v * ((1 + g) * (1 + g)) <= 1.
Lemma kap0 : 0 < kap.
Proof. have : 0 < kap * rho by rewrite EK; nra. nra. Qed.
Lemma kap_a : kap * a <= g.
Proof. apply: (Rmult_le_reg_r rho) => //. have : kap * a * rho = p * (a * a) by rewrite -Rmult_assoc -EK; ring. lra. Qed.
Lemma t_kap : t * kap <= p.
Proof. apply: (Rmult_le_reg_r rho) => //. have := Rmult_le_compat_l p _ _ (Rlt_le _ _ P0) T4. have : t * kap * rho = t * (p * a) by rewrite -EK; ring. lra. Qed.
Lemma q_bound S Z : rho <= S -> Z <= (a * (3 / 2 * p) + t) * a + t + rho -> Z / S <= 3 * (1 + g).
Proof.
  move=> HS HZ. apply: (Rmult_le_reg_r S); first lra. have -> : Z / S * S = Z by field; lra.
  have : (1 + g) * rho <= (1 + g) * S by apply: Rmult_le_compat_l; lra. have : g * rho <= g * S by apply: Rmult_le_compat_l; lra. have : 0 <= g * S by apply: Rmult_le_pos; lra. lra.
Qed.
Lemma D_bound S s q d : rho <= S -> 0 <= q -> q <= 3 * (1 + g) -> 0 <= s -> s <= (3 / 2 * p) * a + t -> Rabs d <= 21 * v * q * (s / S + t) ->
  Rabs d <= 221 * v * (1 + g) * kap /\ (1 + g) * Rabs d <= kap / 10.
Proof.
  move=> HS Q0 Q1 S0 S1 D. have K0 := kap0.
  have X1 : s / S <= 5 / 2 * kap.
  { apply: (Rmult_le_reg_r S); first lra. have -> : s / S * S = s by field; lra. have : kap * rho <= kap * S by apply: Rmult_le_compat_l; lra. lra. }
  have X2 : t <= kap by apply: (Rmult_le_reg_r rho) => //; lra.
  have X3 : 0 <= s / S by apply: Rmult_le_pos => //; left; apply: Rinv_0_lt_compat; lra.
  have X4 : q * (s / S + t) <= 3 * (1 + g) * (7 / 2 * kap) by apply: Rmult_le_compat; lra.
  have X5 := Rmult_le_compat_l (21 * v) _ _ ltac:(lra) X4.
  have Y : 0 <= v * (1 + g) * kap by repeat (apply: Rmult_le_pos; try lra).
  have D1 : Rabs d <= 221 * v * (1 + g) * kap by lra. split=> //.
  have := Rmult_le_compat_l (1 + g) _ _ ltac:(lra) D1. have := Rmult_le_compat_r kap _ _ (Rlt_le _ _ K0) VG. lra.
Qed.
Lemma size_number alpha k1 k2 : 0 <= alpha -> alpha <= 16 / 10 * (1 + g) -> 0 <= k1 -> k1 <= 16 / 10 * kap -> 0 <= k2 -> k2 <= 16 / 10 * kap ->
  (alpha * (3 / 2 * p) + t) * alpha + t + ((k1 * rho + t) * k2 + t) <= 11 * ((1 + g) * (1 + g)) * p.
Proof.
  move=> A1 A2 K1 K2 K3 K4. have K0 := kap0. have KA := kap_a. have TK := t_kap.
  have X1 : alpha * (3 / 2 * p) + t <= 16 / 10 * (1 + g) * (3 / 2 * p) + p.
  { have : alpha * (3 / 2 * p) <= 16 / 10 * (1 + g) * (3 / 2 * p) by apply: Rmult_le_compat_r; lra. lra. }
  have X2 : (alpha * (3 / 2 * p) + t) * alpha <= (16 / 10 * (1 + g) * (3 / 2 * p) + p) * (16 / 10 * (1 + g)).
  { apply: Rmult_le_compat => //. have : 0 <= alpha * (3 / 2 * p) by apply: Rmult_le_pos; lra. lra. }
  have X3 : k1 * rho + t <= 16 / 10 * kap * rho + t by apply: Rplus_le_compat_r; apply: Rmult_le_compat_r; lra.
  have X4 : (k1 * rho + t) * k2 <= (16 / 10 * kap * rho + t) * (16 / 10 * kap).
  { apply: Rmult_le_compat => //. have : 0 <= k1 * rho by apply: Rmult_le_pos; lra. lra. }
  have X5 : kap * rho * kap <= p * g. { rewrite EK. have := Rmult_le_compat_l p _ _ (Rlt_le _ _ P0) KA. lra. }
  have gg : 0 <= g * p by apply: Rmult_le_pos; lra. have g2 : 0 <= g * g * p by repeat (apply: Rmult_le_pos; try lra).
  lra.
Qed.
Lemma total_number us d1 d2 c S : us <= 11 * ((1 + g) * (1 + g)) * p -> Rabs d1 <= 221 * v * (1 + g) * kap -> (1 + g) * Rabs d2 <= kap / 10 ->
  Rabs c <= a * p -> 0 <= S -> S <= a * (3 / 2 * p) * a + rho ->
  21 * v * us + (Rabs (d1 * c) + Rabs (S * (d1 * d2))) <= 500 * v * ((1 + g) * (1 + g)) * p.
Proof.
  move=> U D1 D2 C S0 S1. have K0 := kap0. have KA := kap_a. rewrite !Rabs_mult (Rabs_right S); last lra.
  have X1 : Rabs d1 * Rabs c <= 221 * v * (1 + g) * kap * (a * p) by apply: Rmult_le_compat => //; exact: Rabs_pos.
  have v1 : 0 <= v * (1 + g) by apply: Rmult_le_pos; lra.
  have X2 : v * (1 + g) * p * (kap * a) <= v * (1 + g) * p * g by apply: Rmult_le_compat_l => //; apply: Rmult_le_pos; lra.
  have SR : S <= (1 + g) * rho * (3 / 2) by lra.
  have X3 : S * Rabs d2 <= rho * (3 / 2) * (kap / 10).
  { apply: Rle_trans (_ : _ <= (1 + g) * rho * (3 / 2) * Rabs d2) _; first by apply: Rmult_le_compat_r => //; exact: Rabs_pos.
    have := Rmult_le_compat_l (rho * (3 / 2)) _ _ ltac:(lra) D2. lra. }
  have X4 : Rabs d1 * (S * Rabs d2) <= 221 * v * (1 + g) * kap * (rho * (3 / 2) * (kap / 10)).
  { apply: Rmult_le_compat => //; first exact: Rabs_pos. apply: Rmult_le_pos => //. exact: Rabs_pos. }
  have X5 : v * (1 + g) * (kap * rho * kap) <= v * (1 + g) * (p * g).
  { apply: Rmult_le_compat_l => //. rewrite EK. have := Rmult_le_compat_l p _ _ (Rlt_le _ _ P0) KA. lra. }
  have X6 := Rmult_le_compat_l (21 * v) _ _ ltac:(lra) U.
  have gg : 0 <= v * (g * p) by apply: Rmult_le_pos; try lra; apply: Rmult_le_pos; lra. have g2 : 0 <= v * (g * g * p) by repeat (apply: Rmult_le_pos; try lra).
  have vp : 0 <= v * p by apply: Rmult_le_pos; lra.
  lra.
Qed.
End Scal.
Lemma entry_sub m n (A B : 'M[R]_(m, n)) i j : (A - B) i j = Rminus (A i j) (B i j).
Proof. by rewrite !mxE. Qed.
Lemma sum_sub (I : finType) (F G : I -> R) : Rminus (\sum_i F i) (\sum_i G i) = \sum_i Rminus (F i) (G i).
Proof. exact: (esym (sumrB _ _ F G)). Qed.
Lemma lin3 (a b c d e : R) : Rle a b -> Rle c (Rplus a d) -> Rle (Rplus c e) (Rplus b (Rplus d e)).
Proof. lra. Qed.
Lemma sub_back (a b : R) : a = Rplus b (Rminus a b).
Proof. ring. Qed.
Lemma mul_back (a s : R) : s <> R0 -> Rmult s (Rdiv a s) = a.
Proof. move=> E. field. exact: E. Qed.
Lemma mul_sub (a b c : R) : Rminus (Rmult a b) (Rmult c a) = Rmult a (Rminus b c).
Proof. ring. Qed.
Lemma three_parts (f j d s : R) : Rplus f (Ropp j) = Rplus (Rplus (Rminus f (Rplus (Rplus j (Ropp d)) s)) (Ropp d)) s.
Proof. ring. Qed.
Lemma joseph_shift n m (P : 'M[R]_n) (H : 'M[R]_(m, n)) (Rk : 'M[R]_m) (K D : 'M[R]_(n, m)) : K *m (H *m P *m H^T + Rk) = P *m H^T ->
  joseph P H Rk (K + D) = joseph P H Rk K - D *m (H *m P - (H *m P *m H^T + Rk) *m K^T) + D *m (H *m P *m H^T + Rk) *m D^T.
Proof.
  move=> E. have E1 : (1%:M - K *m H) *m P *m H^T = K *m Rk.
  { rewrite mulmxDr in E. rewrite !mulmxBl mul1mx -E !mulmxA. mx_abel. }
  rewrite /joseph. have -> : 1%:M - (K + D) *m H = (1%:M - K *m H) - D *m H by rewrite mulmxDl; mx_abel.
  have T : (1%:M - K *m H)^T = 1%:M - H^T *m K^T by rewrite [(1%:M - K *m H)^T]linearB /= trmx1 trmx_mul.
  have T2 (M : 'M[R]_n) : (M - D *m H)^T = M^T - H^T *m D^T by rewrite [(M - D *m H)^T]linearB /= trmx_mul.
  rewrite T2 [(K + D)^T]linearD /=. move: E1 T. set M := 1%:M - K *m H. move=> E1 T.
  have -> : (M - D *m H) *m P *m (M^T - H^T *m D^T) = M *m P *m M^T - K *m Rk *m D^T - D *m H *m P *m M^T + D *m H *m P *m H^T *m D^T.
  { rewrite -E1 !mulmxBl !mulmxBr !mulmxA. mx_abel. }
  have -> : D *m H *m P *m M^T = D *m H *m P - D *m H *m P *m H^T *m K^T by rewrite T mulmxBr mulmx1 !mulmxA.
  have -> : (K + D) *m Rk *m (K^T + D^T) = K *m Rk *m K^T + K *m Rk *m D^T + D *m Rk *m K^T + D *m Rk *m D^T by rewrite !mulmxDl !mulmxDr; mx_abel.
  rewrite mulmxBr !mulmxDl !mulmxDr !mulmxDl !mulmxA. mx_abel.
Qed.

Section Meas.
Variables (r : R -> R) (dot : dot_fun) (n : nat).
Hypotheses (Hr : rnd_ok r) (Hd : dot_ok dot) (HN : Rle (INR n) 1000000) (N1 : (0 < n)%N).
Variables (P : 'M[R]_n) (H : 'rV[R]_n) (rho p a g : R).
Let Rk : 'M[R]_1 := const_mx rho.
Let v := vN n.
Let t := tiny64.
Hypotheses (P0 : Rlt 0 p) (A0 : Rlt 0 a) (Rh0 : Rlt 0 rho) (G0 : Rle 0 g).
Hypotheses (G : Rle (Rmult p (Rmult a a)) (Rmult g rho)) (T1 : Rle t p) (T2 : Rle t (Rmult p a)) (T3 : Rle (Rmult t rho) (Rmult p a))
  (T4 : Rle (Rmult t a) rho) (T5 : Rle t rho) (T6 : Rle (Rmult t (Rplus (Rmult 2 (Rmult p (Rmult a a))) rho)) 1).
Hypothesis VG : Rle (Rmult (Rmult 2210 v) (Rmult (Rplus 1 g) (Rplus 1 g))) 1.
Hypotheses (SP : sized (Rmult (Rdiv 3 2) p) P) (SA : forall i j, Rle (Rabs (Rminus (P i j) (P j i))) p) (PP : Rle 0 ((H *m P *m H^T) 0 0)).
Hypothesis HH : Rle (\sum_j Rabs (H 0 j)) a.
Let S : R := (H *m P *m H^T + Rk)%R ord0 ord0.
Let kap := Rdiv (Rmult p a) rho.
Lemma EK : Rmult kap rho = Rmult p a.
Proof. rewrite /kap. field. exact: Rgt_not_eq. Qed.
Let EK' := EK.
Lemma S_ge : Rle rho S.
Proof. rewrite /S mxE [Rk _ _]mxE. move: PP. move: (_ 0 0) => w W. toR. lra. Qed.
Lemma S_up : Rle S (Rplus (Rmult (Rmult a (Rmult (Rdiv 3 2) p)) a) rho).
Proof.
  rewrite /S mxE [Rk _ _]mxE. apply: Rplus_le_compat_r. rewrite mxE. apply: Rle_trans (Rle_abs _) _. apply: Rle_trans (sum_abs _) _.
  have X j : Rle (Rabs ((H *m P) 0 j)) (Rmult a (Rmult (Rdiv 3 2) p)).
  { rewrite mxE. apply: Rle_trans (sum_abs _) _. apply: Rle_trans (_ : Rle _ (\sum_l Rmult (Rmult (Rdiv 3 2) p) (Rabs (H 0 l)))) _.
    - apply: sum_le => l. toR. rewrite Rabs_mult Rmult_comm. apply: Rmult_le_compat_r; [exact: Rabs_pos|exact: SP].
    - rewrite -sum_scale Rmult_comm. apply: Rmult_le_compat_r => //. lra. }
  apply: Rle_trans (_ : Rle _ (\sum_l Rmult (Rmult a (Rmult (Rdiv 3 2) p)) (Rabs (H 0 l)))) _.
  - apply: sum_le => l. toR. rewrite Rabs_mult [H^T _ _]mxE. apply: Rmult_le_compat_r; [exact: Rabs_pos|exact: X].
  - rewrite -sum_scale. apply: Rmult_le_compat_l => //. have := Rmult_lt_0_compat _ _ A0 P0. lra.
Qed.
Lemma innov_up : Rle (innov_size P H Rk ord0 ord0) (Rplus (Rplus (Rmult (Rplus (Rmult a (Rmult (Rdiv 3 2) p)) t) a) t) rho).
Proof.
  rewrite /innov_size mxE [map_mx _ _ _ _]mxE [Rk _ _]mxE (Rabs_right rho); last lra. apply: Rplus_le_compat_r.
  have T0 := tiny_pos. have ap := Rmult_lt_0_compat _ _ A0 P0.
  apply: size_col => [||l]; first by rewrite /t; lra.
  - apply: Rle_trans HH. right. apply: eq_bigr => l _. by rewrite mxE.
  - rewrite size_abs. apply: size_row => //. lra.
Qed.
Let Sp : Rlt 0 S.
Proof. have := S_ge. lra. Qed.
Let S1 : Rle S (Rinv tiny64).
Proof.
  have T0 := tiny_pos. apply: (Rmult_le_reg_l tiny64) => //. rewrite Rinv_r; last exact: Rgt_not_eq. apply: Rle_trans T6. apply: Rmult_le_compat_l; first exact: Rlt_le.
  have := S_up. have := Rmult_lt_0_compat _ _ P0 (Rmult_lt_0_compat _ _ A0 A0). lra.
Qed.
Let q : R := Rdiv (innov_size P H Rk ord0 ord0) S.
Let q_up : Rle q (Rmult 3 (Rplus 1 g)).
Proof. apply: (@q_bound p a rho g t) => //; [exact: S_ge|exact: innov_up]. Qed.
Let Hq : Rle (Rmult (Rmult 100 (vN n)) q) 1.
Proof.
  have [V0 _] := vN_bounds HN. rewrite -/v in V0 *. have := Rmult_le_compat_l (Rmult 100 v) _ _ ltac:(lra) q_up.
  have : Rle 0 (Rmult v g) by apply: Rmult_le_pos; lra. have : Rle 0 (Rmult v (Rmult g g)) by apply: Rmult_le_pos; [lra|exact: Rle_0_sqr]. lra.
Qed.
Lemma measure_gain : exists K, gain_f r dot (inv1_f r) P H Rk = Ret K /\
  (forall i, Rle (Rabs ((K - gain P H Rk)%R i ord0)) (Rmult (Rmult (Rmult 221 v) (Rplus 1 g)) kap) /\ Rle (Rmult (Rplus 1 g) (Rabs ((K - gain P H Rk)%R i ord0))) (Rdiv kap 10)) /\
  forall i, Rle (Rabs (K i ord0)) (Rmult (Rdiv 16 10) kap).
Proof.
  have [V0 [V1 V2]] := vN_bounds HN. have T0 := tiny_pos. rewrite -/v in V0 V1 V2.
  have [K [EKf BK]] := single_gain Hr Hd HN (leqnn n) N1 Sp S1 Hq. exists K. split; first exact: EKf.
  pose K0 := gain P H Rk. pose D := K - K0.
  have kp : Rlt 0 kap by apply: Rdiv_lt_0_compat => //; exact: Rmult_lt_0_compat.
  have DB i : Rle (Rabs (D i ord0)) (Rmult (Rmult (Rmult 221 v) (Rplus 1 g)) kap) /\ Rle (Rmult (Rplus 1 g) (Rabs (D i ord0))) (Rdiv kap 10).
  { have q0 : Rle 0 q by have := q_ge1 Hr Hd HN (leqnn n) Sp; rewrite -/q; lra.
    apply: (@D_bound p a rho g v t kap) S_ge q0 q_up (size_ge0 P H^T i ord0) _ _ => //; try exact: EK.
    - apply: size_col => [||l].
      + lra.
      + apply: Rle_trans HH. right. apply: eq_bigr => l _. by rewrite mxE.
      + exact: SP.
    - rewrite /D entry_sub (gain_single Sp). exact: BK. }
  have K0B i : Rle (Rabs (K0 i ord0)) (Rmult (Rdiv 3 2) kap).
  { rewrite (gain_single Sp). rewrite /Rdiv Rabs_mult (Rabs_right (Rinv _)); last by left; exact: Rinv_0_lt_compat.
    apply: (Rmult_le_reg_r S) => //. rewrite Rmult_assoc Rinv_l; last exact: Rgt_not_eq. rewrite Rmult_1_r.
    have X : Rle (Rabs ((P *m H^T) i ord0)) (Rmult (Rmult (Rdiv 3 2) p) a).
    { rewrite mxE. apply: Rle_trans (sum_abs _) _. apply: Rle_trans (_ : Rle _ (\sum_l Rmult (Rmult (Rdiv 3 2) p) (Rabs (H 0 l)))) _.
      - apply: sum_le => l. toR. rewrite Rabs_mult [H^T _ _]mxE. apply: Rmult_le_compat_r; [exact: Rabs_pos|exact: SP].
      - rewrite -sum_scale. apply: Rmult_le_compat_l => //. lra. }
    have := Rmult_le_compat_l kap _ _ (Rlt_le _ _ kp) S_ge. have := EK. lra. }
  split=> [//|i]. have -> : K i ord0 = Rplus (K0 i ord0) (D i ord0) by rewrite /D entry_sub; exact: sub_back.
  have [_ D2] := DB i. have := Rabs_triang (K0 i ord0) (D i ord0). have := K0B i. have := Rmult_le_pos _ _ G0 (Rabs_pos (D i ord0)). lra.
Qed.
Lemma measure_entries (x : 'cV[R]_n) (z : 'M[R]_1) : exists (xf : 'cV[R]_n) (Pf : 'M[R]_n), filterUpdate_f r dot (inv1_f r) x P z H Rk = Ret (xf, Pf) /\
  H *m P *m H^T + Rk \in unitmx /\ sized (Rmult (Rmult (Rmult 500 v) (Rmult (Rplus 1 g) (Rplus 1 g))) p) (Pf - joseph P H Rk (gain P H Rk)).
Proof.
  have [V0 [V1 V2]] := vN_bounds HN. have T0 := tiny_pos. rewrite -/v in V0 V1 V2.
  have U := Sm_unit Sp. have [K [EKf [DB KB]]] := measure_gain.
  have [xf [Pf EF]] : exists xf Pf, filterUpdate_f r dot (inv1_f r) x P z H Rk = Ret (xf, Pf) by rewrite /filterUpdate_f EKf /=; eexists; eexists.
  have [K' [EK2 [_ BP]]] := update_own_gain Hr Hd HN (leqnn n) N1 EF.
  have KK : K' = K by congruence. subst K'. exists xf, Pf. split; first exact: EF. split; first exact: U.
  pose K0 := gain P H Rk. pose D := K - K0.
  have kp : Rlt 0 kap by apply: Rdiv_lt_0_compat => //; exact: Rmult_lt_0_compat. have ka := kap_a Rh0 G EK.
  have RowA i : Rle (\sum_j Rabs (size_A H K i j)) (Rmult (Rdiv 16 10) (Rplus 1 g)).
  { apply: Rle_trans (_ : Rle _ (\sum_j Rplus ((1%:M : 'M[R]_n) i j) (Rplus (Rmult (Rabs (K i ord0)) (Rabs (H 0 j))) t))) _.
    - right. apply: eq_bigr => j _. have X : size_A H K i j = Rplus ((1%:M : 'M[R]_n) i j) (Rplus (Rmult (Rabs (K i ord0)) (Rabs (H 0 j))) t).
      { rewrite /size_A mxE size1. done. }
      rewrite X Rabs_right //. apply: Rle_ge. apply: Rplus_le_le_0_compat.
      + rewrite mxE. case: (i == j); toR; [exact: Rle_0_1|exact: Rle_refl].
      + have := Rmult_le_pos _ _ (Rabs_pos (K i ord0)) (Rabs_pos (H 0 j)). rewrite /t. lra.
    - rewrite -sum_add -sum_add -sum_scale sum_const.
      have -> : \sum_j (1%:M : 'M[R]_n) i j = R1.
      { rewrite (bigD1 i) //= mxE eqxx big1 ?addr0 // => j /negbTE E. by rewrite mxE eq_sym E. }
      have X1 : Rle (Rmult (Rabs (K i ord0)) (\sum_j Rabs (H 0 j))) (Rmult (Rmult (Rdiv 16 10) kap) a).
      { apply: Rmult_le_compat => //; [exact: Rabs_pos|by apply: sum_ge0 => j; exact: Rabs_pos]. }
      have X2 : Rle (Rmult (INR n) t) (Rdiv 1 10).
      { have := Rmult_le_compat _ _ _ _ (pos_INR n) (Rlt_le _ _ T0) HN tiny_small. rewrite /t. lra. }
      lra. }
  have US i j : Rle (update_size P H Rk K i j) (Rmult (Rmult 11 (Rmult (Rplus 1 g) (Rplus 1 g))) p).
  { have al0 : Rle 0 (Rmult (Rdiv 16 10) (Rplus 1 g)) by lra. have alp := Rmult_le_pos _ _ al0 (Rlt_le _ _ P0).
    apply: Rle_trans (@size_number p a rho g t kap P0 Rh0 G0 T0 G T1 T2 T4 T5 EK (Rmult (Rdiv 16 10) (Rplus 1 g)) (Rabs (K i ord0)) (Rabs (K j ord0)) al0 (Rle_refl _) (Rabs_pos _) (KB i) (Rabs_pos _) (KB j)).
    rewrite /update_size mxE. apply: Rplus_le_compat.
    - apply: size_col => [||l]; first by rewrite /t; lra.
      + apply: Rle_trans (RowA j). right. apply: eq_bigr => l _. by rewrite mxE.
      + rewrite size_abs. apply: size_row => //. lra.
    - rewrite size1 size_abs [K^T _ _]mxE size1 [Rk _ _]mxE (Rabs_right rho); last lra. exact: Rle_refl. }
  move=> i j. have KE : K = K0 + D by rewrite /D addrC addrNK.
  have GS := gainS U. have := BP i j. rewrite -/(joseph P H Rk K) KE (joseph_shift D GS) -KE => B.
  set c : 'rV[R]_n := H *m P - (H *m P *m H^T + Rk) *m K0^T.
  have CB : Rle (Rabs (c ord0 j)) (Rmult a p).
  { have X : c ord0 j = \sum_l Rmult (H 0 l) (Rminus (P l j) (P j l)).
    { rewrite /c entry_sub [(_ *m K0^T) _ _]mxE big_ord1 [K0^T _ _]mxE (gain_single Sp) -/S.
      have -> : S * Rdiv ((P *m H^T) j ord0) S = (P *m H^T) j ord0 by apply: mul_back; exact: Rgt_not_eq.
      rewrite ![(_ *m _) _ _]mxE sum_sub. apply: eq_bigr => l _. rewrite [H^T _ _]mxE. exact: mul_sub. }
    rewrite X. apply: Rle_trans (sum_abs _) _. apply: Rle_trans (_ : Rle _ (\sum_l Rmult p (Rabs (H 0 l)))) _.
    - apply: sum_le => l. rewrite Rabs_mult Rmult_comm. apply: Rmult_le_compat_r; [exact: Rabs_pos|exact: SA].
    - rewrite -sum_scale Rmult_comm. apply: Rmult_le_compat_r => //. lra. }
  have E1 : (D *m c) i j = Rmult (D i ord0) (c ord0 j) by rewrite mxE big_ord1.
  have E2 : (D *m (H *m P *m H^T + Rk) *m D^T) i j = Rmult S (Rmult (D i ord0) (D j ord0)).
  { rewrite mxE big_ord1 [(D *m _) _ _]mxE big_ord1 [D^T _ _]mxE. exact: mul_3. }
  have [D1 _] := DB i. have [_ D2] := DB j.
  have TN := @total_number p a rho g v t kap P0 Rh0 G0 V0 T0 G T2 T5 EK (update_size P H Rk K i j) (D i ord0) (D j ord0) (c ord0 j) S (US i j) D1 D2 CB (Rlt_le _ _ Sp) S_up.
  move: B. rewrite -/c [((_ - _ + _) : 'M_n) i j]mxE [((_ - _) : 'M_n) i j]mxE [(- (D *m c)) i j]mxE E1 E2 [((_ - _) : 'M_n) i j]mxE [(- joseph _ _ _ _) i j]mxE.
  set jj := joseph _ _ _ _ i j. move: TN. rewrite -/(vN n) -/v. set dc := Rmult (D i ord0) _. set sd := Rmult S _. move: (update_size _ _ _ _ _ _) => us TN B.
  apply: Rle_trans TN. have -> : (Pf i j + - jj)%R = Rplus (Rplus (Rminus (Pf i j) ((jj + - dc + sd)%R)) (Ropp dc)) sd by exact: three_parts.
  apply: Rle_trans (Rabs_triang _ _) _. have := Rabs_triang (Rminus (Pf i j) ((jj + - dc + sd)%R)) (Ropp dc). rewrite Rabs_Ropp => T. exact: (lin3 _ B T).
Qed.
End Meas.
