(** Rounding errors of least squares: the two functions. *)
From Coq Require Import Reals Lra Psatz FunctionalExtensionality.
From mathcomp Require Import all_ssreflect all_algebra.
From Verif Require Import Base BaseMx ModelEigen ModelKalman ModelBls ModelFilterFloat ModelBlsFloat SpecFloatOps SpecKalman SpecFilter SpecBls SpecFilterFloat SpecUpdateFloat SpecBlsFloat
  ProofMx ProofKalman ProofKalman2 ProofKalman3 ProofBls ProofBls2 ProofStrapdownFloat ProofFilterFloat ProofUpdateFloat ProofDisturb2 ProofLopsided ProofLongFloat ProofBlsFloat.
Set Implicit Arguments.
Unset Strict Implicit.
Unset Printing Implicit Defensive.
Import GRing.Theory.

Section Scal.
Local Open Scope R_scope.
Lemma cost_scal u v e t t' T (q : R -> R) : 0 < u <= v -> v <= 2 / 1000000000 -> 0 < e -> e <= T -> (forall a, Rabs (q a - a) <= u * Rabs a + u * e) ->
  Rabs (t' - t) <= 15 * v * T -> Rabs t <= T -> Rabs (q (1 / 2 * t') - 1 / 2 * t) <= 10 * v * T.
Proof.
  move=> U V E ET Q A B. have := Q (1 / 2 * t'). move=> {Q} Q. rewrite Rabs_mult (Rabs_right (1 / 2)) in Q; last lra.
  have A' : Rabs t' <= 11 / 10 * T.
  { have := Rabs_triang (t' - t) t. have -> : t' - t + t = t' by ring. have : v * T <= 2 / 1000000000 * T by apply: Rmult_le_compat_r; lra. lra. }
  have M1 : u * Rabs t' <= v * (11 / 10 * T) by apply: Rmult_le_compat; [lra|exact: Rabs_pos|lra|lra].
  have M2 : u * e <= v * T by apply: Rmult_le_compat; lra.
  have P0 : 0 <= v * T by apply: Rmult_le_pos; lra.
  move: Q A => /Rcomplements.Rabs_le_between Q /Rcomplements.Rabs_le_between A. apply/Rcomplements.Rabs_le_between. split; lra.
Qed.
Lemma total_scal v c e Y B S S0 q J : 0 < v -> 0 <= c -> Rabs (J - 1 / 2 * S) <= 10 * v * B -> B <= (7 + 30 * c) * Y -> S = S0 + q ->
  0 <= q -> q <= (4 * (e * c)) * (4 * (e * c)) * Y -> Rabs (J - 1 / 2 * S0) <= ((70 + 300 * c) * v + 8 * ((e * c) * (e * c))) * Y.
Proof.
  move=> V C A HB HS Q0 Q. rewrite HS in A. have M := Rmult_le_compat_l (10 * v) _ _ ltac:(lra) HB.
  apply/Rcomplements.Rabs_le_between. move: A. move=> /Rcomplements.Rabs_le_between A. split; nra.
Qed.
(** |a + b + c|^2 is at most three times the sum of the squares. *)
Lemma three_sq a b c : (a + (b + c)) * (a + (b + c)) <= 3 * (a * a + (b * b + c * c)).
Proof. have := Rle_0_sqr (a - b). have := Rle_0_sqr (a - c). have := Rle_0_sqr (b - c). rewrite /Rsqr. lra. Qed.
Lemma size_scal t m Y B c a q : 0 < t <= 1 / 1000000000 -> 0 <= m <= 1000000 -> t <= Y -> 0 <= c -> 0 <= a <= 1 / 2 ->
  q <= 2 * (Y + (4 * a) * (4 * a) * Y) -> B <= 3 * (Y + (c * q + m * (t * t))) -> B + t <= (7 + 30 * c) * Y.
Proof.
  move=> T M TY C A Q HB. have : 4 * a * (4 * a) <= 4 by nra. move=> A2. have : q <= 10 * Y by nra. move=> Q'. have : m * t <= 1 by nra. move=> MT.
  have : m * (t * t) <= Y by nra. have := Rmult_le_compat_l c _ _ C Q'. nra.
Qed.
End Scal.

Local Open Scope ring_scope.
Local Open Scope outcome_scope.

Lemma sq_ge0 n (w : 'cV[R]_n) : Rle 0 (sq w).
Proof. rewrite -sq_qf. exact: (proj2 (pd_psd (pd1 _))). Qed.
Lemma abs_dot k (a b : 'cV[R]_k) : Rle (\sum_i Rmult (Rabs (a i 0)) (Rabs (b i 0))) (Rmult (sqrt (sq a)) (sqrt (sq b))).
Proof.
  have HP := pd_psd (pd1 k). pose u : 'cV[R]_k := map_mx Rabs a. pose v : 'cV[R]_k := map_mx Rabs b.
  have F := @form_bound k 1%:M 1%:M 1 u v HP (proj1 HP) ltac:(lra).
  have E1 : (u^T *m 1%:M *m v) 0 0 = \sum_i Rmult (Rabs (a i 0)) (Rabs (b i 0)) by rewrite mulmx1 mxE; apply: eq_bigr => i _; rewrite !mxE.
  have E2 (w : 'cV[R]_k) : qf 1%:M (map_mx Rabs w) = sq w.
  { rewrite sq_qf /sq. apply: eq_bigr => i _. rewrite !mxE. toR. rewrite -Rabs_mult Rabs_right //. exact: Rle_ge (Rle_0_sqr _). }
  rewrite E1 /u /v !E2 in F.
  rewrite -sqrt_mult_alt; last exact: sq_ge0. apply: Rsqr_incr_0_var; last exact: sqrt_pos. rewrite /Rsqr sqrt_sqrt; last by apply: Rmult_le_pos; exact: sq_ge0.
  have : Rle (Rmult (\sum_i Rmult (Rabs (a i 0)) (Rabs (b i 0))) (\sum_i Rmult (Rabs (a i 0)) (Rabs (b i 0)))) (Rmult (Rmult 1 1) (Rmult (sq a) (sq b))); [|lra].
  apply: F => w; have := proj2 HP w; lra.
Qed.
Lemma col_sq m n (H : 'M[R]_(m, n)) i : (H^T *m H) i i = sq (col i H).
Proof. rewrite mxE. apply: eq_bigr => k _. by rewrite !mxE. Qed.
Lemma len_sq n (v : 'cV[R]_n) : Rmult (len v) (len v) = sq v.
Proof. apply: sqrt_sqrt. exact: sq_ge0. Qed.
(** An underflow threshold below both squares is below their mean. *)
Lemma tiny_mean (t a b : R) : Rle 0 t -> Rle t a -> Rle t b -> Rle t (Rmult (sqrt a) (sqrt b)).
Proof.
  move=> T A B. rewrite -sqrt_mult_alt; last lra. apply: Rsqr_incr_0_var; last exact: sqrt_pos. rewrite /Rsqr sqrt_sqrt; last by apply: Rmult_le_pos; lra.
  apply: Rmult_le_compat; lra.
Qed.

Section Sizes.
Variables (r : R -> R) (dot : dot_fun) (N m n : nat).
Hypothesis Hr : rnd_ok r.
Hypothesis Hd : dot_ok dot.
Hypothesis HN : Rle (INR N) 1000000.
Hypothesis Hn : (n <= N)%N.
Hypothesis Hm : (m <= N)%N.
Variables (H : 'M[R]_(m, n)) (y : 'cV[R]_m).
Lemma near_normal : near N 3 (normal_f dot H) (H^T *m H) (size_mul H^T H).
Proof.
  have := @near_mul _ Hd _ HN _ _ _ 0 0 _ _ _ _ _ _ Hm _ _ _ _ (near_refl N H^T) (near_refl N H). rewrite size_mul_abs size_mul_abs'. move=> Q. apply: (near_le HN _ (Q _ _ _ _)); rlra.
Qed.
Lemma near_rhs : near N 3 (rhs_f dot H y) (H^T *m y) (size_mul H^T y).
Proof.
  have := @near_mul _ Hd _ HN _ _ _ 0 0 _ _ _ _ _ _ Hm _ _ _ _ (near_refl N H^T) (near_refl N y). rewrite size_mul_abs size_mul_abs'. move=> Q. apply: (near_le HN _ (Q _ _ _ _)); rlra.
Qed.
Lemma near_wnormal W : near N 6 (wnormal_f dot H W) (H^T *m W *m H) (size_mul (size_mul H^T W) H).
Proof.
  have A : near N 3 (mul_f dot H^T W) (H^T *m W) (size_mul H^T W).
  { have := @near_mul _ Hd _ HN _ _ _ 0 0 _ _ _ _ _ _ Hm _ _ _ _ (near_refl N H^T) (near_refl N W). rewrite size_mul_abs size_mul_abs'. move=> Q. apply: (near_le HN _ (Q _ _ _ _)); rlra. }
  have := @near_mul _ Hd _ HN _ _ _ 3 0 _ _ _ _ _ _ Hm _ _ _ _ A (near_refl N H). rewrite size_mul_abs'. move=> Q. apply: (near_le HN _ (Q _ _ _ _)); rlra.
Qed.
Lemma near_wrhs W : near N 6 (wrhs_f dot H W y) (H^T *m W *m y) (size_mul (size_mul H^T W) y).
Proof.
  have A : near N 3 (mul_f dot H^T W) (H^T *m W) (size_mul H^T W).
  { have := @near_mul _ Hd _ HN _ _ _ 0 0 _ _ _ _ _ _ Hm _ _ _ _ (near_refl N H^T) (near_refl N W). rewrite size_mul_abs size_mul_abs'. move=> Q. apply: (near_le HN _ (Q _ _ _ _)); rlra. }
  have := @near_mul _ Hd _ HN _ _ _ 3 0 _ _ _ _ _ _ Hm _ _ _ _ A (near_refl N y). rewrite size_mul_abs'. move=> Q. apply: (near_le HN _ (Q _ _ _ _)); rlra.
Qed.
Lemma near_resid (x : 'cV[R]_n) : near N 6 (map_mx r (y - mul_f dot H x)) (y - H *m x) (resid_size H y x).
Proof.
  have A : near N 3 (mul_f dot H x) (H *m x) (size_mul H x).
  { have := @near_mul _ Hd _ HN _ _ _ 0 0 _ _ _ _ _ _ Hn _ _ _ _ (near_refl N H) (near_refl N x). rewrite size_mul_abs size_mul_abs'. move=> Q. apply: (near_le HN _ (Q _ _ _ _)); rlra. }
  have Y : near N 3 y y (map_mx Rabs y) by apply: (near_le HN _ (near_refl N y)); rlra.
  have Q := @near_add _ Hr _ HN _ _ 3 _ _ _ _ _ _ _ _ _ Y (near_opp A). apply: (near_le HN _ (Q _ _ _)); try rlra. right=> i j. exact: size_mul_tiny.
Qed.
Lemma resid_size_ge0 (x : 'cV[R]_n) i j : Rle 0 (resid_size H y x i j).
Proof. rewrite /resid_size mxE [map_mx _ _ _ _]mxE. apply: Rplus_le_le_0_compat; [exact: Rabs_pos|exact: size_ge0]. Qed.
Lemma sq_mul k (e : 'cV[R]_k) : sq e = (e^T *m e) 0 0.
Proof. rewrite /sq mxE. apply: eq_bigr => i _. by rewrite mxE. Qed.
Lemma cost_near (x : 'cV[R]_n) :
  Rle (Rabs (Rminus (cost_f r dot y H x) (Rmult (Rdiv 1 2) (sq (y - H *m x))))) (Rmult (Rmult 10 (vN N)) (Rplus (sq (resid_size H y x)) tiny64)).
Proof.
  have E := near_resid x. set ef := map_mx r (y - mul_f dot H x) in E.
  have Q := @near_mul _ Hd _ HN _ _ _ 6 6 _ _ _ _ _ _ Hm _ _ _ _ (near_tr E) E.
  have {Q} [Q1 Q2] := Q ltac:(rlra) ltac:(rlra) ltac:(rlra) ltac:(rlra) 0 0.
  have S : size_mul (resid_size H y x)^T (resid_size H y x) 0 0 = Rplus (sq (resid_size H y x)) tiny64.
  { rewrite /size_mul mxE [const_mx _ _ _]mxE sq_mul. congr (Rplus _ _). rewrite !mxE. apply: eq_bigr => l _.
    have := resid_size_ge0 x l 0. move: (resid_size H y x) => B P. rewrite !mxE Rabs_right //. exact: Rle_ge. }
  rewrite S in Q1 Q2. rewrite -sq_mul in Q1 Q2.
  have C : cost_f r dot y H x = r (Rmult (Rdiv 1 2) (mul_f dot ef^T ef 0 0)).
  { rewrite /cost_f -/ef /mul_f mxE. congr (r (Rmult _ _)). congr (dot _ _); apply: functional_extensionality => l; by rewrite ?mxE. }
  rewrite C. have [V0 [V1 V2]] := vN_bounds HN. have [U0 U1] := u64_bounds. have T := tiny_pos. have S0 := sq_ge0 (resid_size H y x).
  apply: (@cost_scal u64 (vN N) tiny64) => //; try rlra. move=> a. have := Hr a. by rewrite eta_tiny.
Qed.
End Sizes.

Section Size2.
Variables (m n : nat) (H : 'M[R]_(m, n)) (y : 'cV[R]_m).
Let A := H^T *m H.
Lemma diag0 i : Rle 0 (A i i).
Proof. rewrite /A col_sq. exact: sq_ge0. Qed.
Lemma resid_size_sq l (x : 'cV[R]_n) : Rlt 0 l -> apart l A ->
  Rle (sq (resid_size H y x)) (Rmult 3 (Rplus (sq y) (Rplus (Rmult (Rdiv (INR n) l) (qf A x)) (Rmult (INR m) (Rmult tiny64 tiny64))))).
Proof.
  move=> L AP.
  have X : Rle (\sum_(k < m) Rmult (\sum_i Rabs (Rmult (H k i) (x i 0))) (\sum_i Rabs (Rmult (H k i) (x i 0)))) (Rmult (Rdiv (INR n) l) (qf A x)).
  { apply: (Rle_trans _ (\sum_(k < m) Rmult (INR n) (\sum_i Rmult (Rmult (H k i) (x i 0)) (Rmult (H k i) (x i 0))))).
    - apply: sum_le => k. pose w : 'cV[R]_n := \col_i Rmult (H k i) (x i 0).
      have E1 : \sum_i Rabs (Rmult (H k i) (x i 0)) = \sum_i Rabs (w i 0) by apply: eq_bigr => i _; rewrite mxE.
      have E2 : \sum_i Rmult (Rmult (H k i) (x i 0)) (Rmult (H k i) (x i 0)) = qf 1%:M w by rewrite sq_qf; apply: eq_bigr => i _; rewrite mxE.
      rewrite E1 E2. exact: cauchy.
    - rewrite -sum_scale exchange_big /=.
      have -> : \sum_(j < n) \sum_(i < m) Rmult (Rmult (H i j) (x j 0)) (Rmult (H i j) (x j 0)) = \sum_j Rmult (A j j) (Rmult (x j 0) (x j 0)).
      { apply: eq_bigr => j _. rewrite /A col_sq /sq Rmult_comm sum_scale. apply: eq_bigr => i _. rewrite !mxE. toR. lra. }
      have := AP x. have := pos_INR n. move: (\sum_j _) (qf A x) (INR n) => a b c C B.
      have -> : Rmult (Rdiv c l) b = Rmult c (Rdiv b l) by rewrite /Rdiv; ring. apply: Rmult_le_compat_l => //.
      apply: (Rmult_le_reg_l l) => //. have -> : Rmult l (Rdiv b l) = b by field; lra. exact: B. }
  apply: (Rle_trans _ (Rmult 3 (Rplus (sq y) (Rplus (\sum_(k < m) Rmult (\sum_i Rabs (Rmult (H k i) (x i 0))) (\sum_i Rabs (Rmult (H k i) (x i 0)))) (Rmult (INR m) (Rmult tiny64 tiny64)))))).
  2: { move: X. move: (\sum_(k < m) _) (Rmult (Rdiv _ _) _) (sq y) (Rmult (INR m) _) => a b c e. lra. }
  clear X. rewrite -sum_const /sq.
  have P (f g : 'I_m -> R) : Rplus (\sum_i f i) (\sum_i g i) = \sum_i Rplus (f i) (g i) by rewrite big_split.
  rewrite !P sum_scale. apply: sum_le => k.
  have -> : resid_size H y x k 0 = Rplus (Rabs (y k 0)) (Rplus (\sum_i Rabs (Rmult (H k i) (x i 0))) tiny64).
  { rewrite /resid_size mxE [map_mx _ _ _ _]mxE. congr (Rplus _ _). rewrite /size_mul mxE [const_mx _ _ _]mxE. congr (Rplus _ _). rewrite mxE.
    apply: eq_bigr => i _. rewrite !mxE. toR. by rewrite Rabs_mult. }
  have Y : Rmult (y k 0) (y k 0) = Rmult (Rabs (y k 0)) (Rabs (y k 0)) by rewrite -Rabs_mult Rabs_right //; exact: Rle_ge (Rle_0_sqr _).
  apply: Rle_trans (three_sq _ _ _) _. rewrite -Y. exact: Rle_refl.
Qed.
Lemma qf_opp (d : 'cV[R]_n) (B : 'M[R]_n) : qf B (- d) = qf B d.
Proof. have trN : (- d)^T = - d^T by exact: linearN. by rewrite /qf trN !mulNmx mulmxN opprK. Qed.
Lemma qf_two (x d : 'cV[R]_n) : psd A -> Rle (qf A (x + d)) (Rmult 2 (Rplus (qf A x) (qf A d))).
Proof.
  move=> HP. have := proj2 HP (x - d). rewrite (qf_add x d (proj1 HP)) (qf_add x (- d) (proj1 HP)).
  rewrite qf_opp.
  have -> : (x^T *m A *m - d) 0 0 = - (x^T *m A *m d) 0 0 by rewrite mulmxN [LHS]mxE.
  move: (qf A x) (qf A d) ((x^T *m A *m d) 0 0) => a b c. rewrite !mulr2n. rlra.
Qed.
Lemma normal1 : H^T *m 1%:M *m H = A.
Proof. by rewrite mulmx1. Qed.
Lemma size_normal i j : (forall i, Rle tiny64 (A i i)) -> Rle (size_mul H^T H i j) (Rmult 2 (Rmult (sqrt (A i i)) (sqrt (A j j)))).
Proof.
  move=> T. have := tiny_mean (Rlt_le _ _ tiny_pos) (T i) (T j). have := abs_dot (col i H) (col j H). rewrite -!col_sq -/A.
  have -> : size_mul H^T H i j = Rplus (\sum_k Rmult (Rabs (col i H k 0)) (Rabs (col j H k 0))) tiny64.
  { rewrite /size_mul mxE [const_mx _ _ _]mxE. congr (Rplus _ _). rewrite mxE. apply: eq_bigr => k _. by rewrite !mxE. }
  move: (\sum_k _) (Rmult (sqrt _) _) => a b. rlra.
Qed.
Lemma size_rhs i : (forall i, Rle tiny64 (A i i)) -> Rle tiny64 (sq y) -> Rle (size_mul H^T y i 0) (Rmult 2 (Rmult (sqrt (A i i)) (sqrt (sq y)))).
Proof.
  move=> T TY. have := tiny_mean (Rlt_le _ _ tiny_pos) (T i) TY. have := abs_dot (col i H) y. rewrite -!col_sq -/A.
  have -> : size_mul H^T y i 0 = Rplus (\sum_k Rmult (Rabs (col i H k 0)) (Rabs (y k 0))) tiny64.
  { rewrite /size_mul mxE [const_mx _ _ _]mxE. congr (Rplus _ _). rewrite mxE. apply: eq_bigr => k _. by rewrite !mxE. }
  move: (\sum_k _) (Rmult (sqrt _) _) => a b. rlra.
Qed.
End Size2.
