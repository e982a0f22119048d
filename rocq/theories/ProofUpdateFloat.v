(** Rounding errors of the measurement update of a filter of any size. *)
From Coq Require Import Reals Lra Psatz.
From mathcomp Require Import all_ssreflect all_algebra.
From Verif Require Import Base BaseMx ModelEigen ModelKalman ModelDate ModelStrapdownFloat ModelFilterFloat ModelUpdateFloat SpecFloatOps SpecKalman SpecFilterFloat
  SpecUpdateFloat ProofMx ProofKalman ProofKalman2 ProofStrapdownFloat ProofStrapdownFloat2 ProofFilterFloat1 ProofFilterFloat.
Set Implicit Arguments.
Unset Strict Implicit.
Unset Printing Implicit Defensive.
Import GRing.Theory.
Local Open Scope ring_scope.

(** ** Scalars *)
Lemma tiny_pos : Rlt 0 tiny64.
Proof. rewrite /tiny64. have [U0 _] := u64_bounds. apply: Rdiv_lt_0_compat => //. exact: Flocq.Core.Raux.bpow_gt_0. Qed.
Lemma eta_tiny : eta64 = Rmult u64 tiny64.
Proof. rewrite /tiny64. have [U0 _] := u64_bounds. field. lra. Qed.

Section Scalars.
Local Open Scope R_scope.
Variable v : R.
Hypothesis Hv : 0 < v <= 2 / 1000000000.
Lemma term_err a b x x' y y' B C : 0 <= a <= 100 -> 0 <= b <= 100 -> Rabs (x' - x) <= a * v * B -> Rabs x <= B -> Rabs (y' - y) <= b * v * C -> Rabs y <= C ->
  Rabs (x' * y' - x * y) <= (a + b + 1 / 10) * v * (B * C) /\ Rabs (x' * y') <= 11 / 10 * (B * C).
Proof.
  move=> Ha Hb X1 X2 Y1 Y2.
  have B0 : 0 <= B by have := Rabs_pos x; lra. have C0 : 0 <= C by have := Rabs_pos y; lra.
  have BC : 0 <= B * C by apply: Rmult_le_pos.
  have av : 0 <= a * v <= 2 / 10000000 by nra. have bv : 0 <= b * v <= 2 / 10000000 by nra.
  have E1 : Rabs (x' * y' - x * y) <= a * v * B * C + b * v * B * C + a * v * B * (b * v * C).
  { rewrite (_ : x' * y' - x * y = (x' - x) * y + x * (y' - y) + (x' - x) * (y' - y)); last by ring.
    apply: Rle_trans (Rabs_triang _ _) _. apply: Rplus_le_compat; first (apply: Rle_trans (Rabs_triang _ _) _; apply: Rplus_le_compat).
    - rewrite Rabs_mult. by apply: Rmult_le_compat => //; exact: Rabs_pos.
    - rewrite Rabs_mult. rewrite (_ : b * v * B * C = B * (b * v * C)); last by ring. by apply: Rmult_le_compat => //; exact: Rabs_pos.
    - rewrite Rabs_mult. by apply: Rmult_le_compat => //; exact: Rabs_pos. }
  have ab : a * v * (b * v) <= 1 / 10 * v by nra.
  have E2 : a * v * B * (b * v * C) <= 1 / 10 * v * (B * C).
  { rewrite (_ : a * v * B * (b * v * C) = a * v * (b * v) * (B * C)); last by ring. exact: Rmult_le_compat_r. }
  have F1 : a * v * B * C + b * v * B * C + 1 / 10 * v * (B * C) = (a + b + 1 / 10) * v * (B * C) by ring.
  split; first lra.
  have F2 : (a + b + 1 / 10) * v * (B * C) <= 1 / 10 * (B * C) by apply: Rmult_le_compat_r => //; lra.
  have F3 : Rabs (x * y) <= B * C by rewrite Rabs_mult; apply: Rmult_le_compat => //; exact: Rabs_pos.
  have := Rabs_triang (x' * y' - x * y) (x * y). rewrite (_ : x' * y' - x * y + x * y = x' * y'); last by ring. lra.
Qed.
Lemma add_scal u t k x x' y y' B C (r : R -> R) : 0 < u <= v -> (forall a, Rabs (r a - a) <= u * Rabs a + u * t) -> 0 <= k <= 100 -> 0 <= t <= B \/ 0 <= t <= C ->
  Rabs (x' - x) <= k * v * B -> Rabs x <= B -> Rabs (y' - y) <= k * v * C -> Rabs y <= C ->
  Rabs (r (x' + y') - (x + y)) <= (k + 3) * v * (B + C).
Proof.
  move=> Hu Hr Hk Ht X1 X2 Y1 Y2.
  have B0 : 0 <= B by have := Rabs_pos x; lra. have C0 : 0 <= C by have := Rabs_pos y; lra.
  have kv : 0 <= k * v <= 2 / 10000000 by nra.
  have E : Rabs (x' + y' - (x + y)) <= k * v * (B + C).
  { rewrite (_ : x' + y' - (x + y) = (x' - x) + (y' - y)); last by ring. apply: Rle_trans (Rabs_triang _ _) _. lra. }
  have F : Rabs (x' + y') <= 2 * (B + C).
  { have := Rabs_triang (x' + y' - (x + y)) (x + y). rewrite (_ : x' + y' - (x + y) + (x + y) = x' + y'); last by ring.
    have := Rabs_triang x y. have : k * v * (B + C) <= B + C by nra. lra. }
  have G := Hr (x' + y').
  have G2 : u * Rabs (x' + y') <= v * (2 * (B + C)) by apply: Rmult_le_compat; try lra; exact: Rabs_pos.
  have G3 : u * t <= v * (B + C) by apply: Rmult_le_compat; lra.
  have := Rabs_triang (r (x' + y') - (x' + y')) (x' + y' - (x + y)).
  rewrite (_ : r (x' + y') - (x' + y') + (x' + y' - (x + y)) = r (x' + y') - (x + y)); last by ring.
  lra.
Qed.
End Scalars.

Section Near.
Variable r : R -> R.
Variable dot : dot_fun.
Hypothesis Hr : rnd_ok r.
Hypothesis Hd : dot_ok dot.
Variable N : nat.
Hypothesis HN : Rle (INR N) 1000000.
Definition vN : R := Rmult (INR N + 1) u64.
Lemma vN_bounds : Rlt 0 vN /\ Rle vN (Rdiv 2 1000000000) /\ Rle u64 vN.
Proof.
  have [U0 U1] := u64_bounds. have P := pos_INR N. rewrite /vN. toR. split; first by apply: Rmult_lt_0_compat; lra.
  split; last by nra. have : Rle (Rmult (INR N + 1) u64) (Rmult 1000001 (Rdiv 1 1000000000000000)) by toR; apply: Rmult_le_compat; lra. toR. lra.
Qed.
Definition near m n k (Xf X B : 'M[R]_(m, n)) : Prop := forall i j,
  Rle (Rabs (Rminus (Xf i j) (X i j))) (Rmult (Rmult k vN) (B i j)) /\ Rle (Rabs (X i j)) (B i j).

Lemma near_refl m n (X : 'M[R]_(m, n)) : near 0 X X (map_mx Rabs X).
Proof. move=> i j. rewrite mxE. toR. rewrite Rminus_eq_0 Rabs_R0 !Rmult_0_l. split; exact: Rle_refl. Qed.
Lemma near_tr m n k (Xf X B : 'M[R]_(m, n)) : near k Xf X B -> near k Xf^T X^T B^T.
Proof. move=> H i j. rewrite !mxE. exact: H. Qed.
Lemma near_opp m n k (Xf X B : 'M[R]_(m, n)) : near k Xf X B -> near k (- Xf) (- X) B.
Proof.
  move=> H i j. have [A C] := H i j. rewrite !mxE. toR. rewrite Rabs_Ropp. split=> //.
  by rewrite (_ : Rminus (Ropp (Xf i j)) (Ropp (X i j)) = Ropp (Rminus (Xf i j) (X i j))); [rewrite Rabs_Ropp|ring].
Qed.
Lemma near_le m n k l (Xf X B : 'M[R]_(m, n)) : Rle k l -> near k Xf X B -> near l Xf X B.
Proof.
  move=> L H i j. have [A C] := H i j. split=> //. apply: Rle_trans A _. have [V0 _] := vN_bounds.
  apply: Rmult_le_compat_r; first by have := Rabs_pos (X i j); lra. apply: Rmult_le_compat_r; lra.
Qed.
Lemma near_add m n k (Xf X B Yf Y C : 'M[R]_(m, n)) : Rle 0 k -> Rle k 100 -> (forall i j, Rle tiny64 (B i j)) \/ (forall i j, Rle tiny64 (C i j)) ->
  near k Xf X B -> near k Yf Y C -> near (Rplus k 3) (map_mx r (Xf + Yf)) (X + Y) (B + C).
Proof.
  move=> K0 K1 T HX HY i j. have [A1 A2] := HX i j. have [B1 B2] := HY i j. have [V0 [V1 V2]] := vN_bounds. have [U0 U1] := u64_bounds.
  have T0 := tiny_pos. rewrite !mxE. split; last by apply: Rle_trans (Rabs_triang _ _) _; exact: Rplus_le_compat.
  apply: (@add_scal vN (conj V0 V1) u64 tiny64 k (X i j) (Xf i j) (Y i j) (Yf i j) (B i j) (C i j) r) => //; try lra.
  - move=> a. rewrite -eta_tiny. exact: Hr.
  - case: T => T; [left|right]; have Q := T i j; split; lra.
Qed.
Lemma near_mul m p n a b (Xf X B : 'M[R]_(m, p)) (Yf Y C : 'M[R]_(p, n)) : (p <= N)%N -> Rle 0 a -> Rle a 100 -> Rle 0 b -> Rle b 100 ->
  near a Xf X B -> near b Yf Y C -> near (Rplus (Rplus a b) 3) (mul_f dot Xf Yf) (X *m Y) (size_mul B C).
Proof.
  move=> Hp A0 A1 B0 B1 HX HY i j. have [V0 [V1 V2]] := vN_bounds. have [U0 U1] := u64_bounds. have T0 := tiny_pos.
  have HpR : Rle (INR p) (INR N) by apply: le_INR; apply/leP.
  have Hp6 : Rle (INR p) 1000000 by lra.
  have SE : (size_mul B C) i j = Rplus (\sum_l Rmult (B i l) (C l j)) tiny64.
  { rewrite /size_mul !mxE. congr (_ + _). apply: eq_bigr => l _. rewrite !mxE. toR.
    have [_ Q1] := HX i l. have [_ Q2] := HY l j. have W1 := Rabs_pos (X i l). have W2 := Rabs_pos (Y l j).
    rewrite (Rabs_right (B i l)); last by lra. rewrite (Rabs_right (C l j)) //. lra. }
  have D := Hd (fun l => Xf i l) (fun l => Yf l j) Hp6.
  have TE l := @term_err vN (conj V0 V1) a b (X i l) (Xf i l) (Y l j) (Yf l j) (B i l) (C l j) (conj A0 A1) (conj B0 B1) (proj1 (HX i l)) (proj2 (HX i l)) (proj1 (HY l j)) (proj2 (HY l j)).
  rewrite SE. set S := \sum_l Rmult (B i l) (C l j).
  have S0 : Rle 0 S.
  { apply: sum_ge0 => l. have [_ Q1] := HX i l. have [_ Q2] := HY l j. have W1 := Rabs_pos (X i l). have W2 := Rabs_pos (Y l j). apply: Rmult_le_pos; lra. }
  have E1 : Rle (\sum_i0 Rabs (Xf i i0 * Yf i0 j)) (Rmult (Rdiv 11 10) S).
  { rewrite /S sum_scale. apply: sum_le => l. toR. exact: (proj2 (TE l)). }
  have E2 : Rle (Rabs (Rminus (\sum_l Xf i l * Yf l j) ((X *m Y) i j))) (Rmult (Rmult (Rplus (Rplus a b) (Rdiv 1 10)) vN) S).
  { rewrite mxE. change (Rminus ?x ?y) with (x - y). rewrite -sumrB. apply: Rle_trans (sum_abs _) _. rewrite /S sum_scale. apply: sum_le => l. exact: (proj1 (TE l)). }
  have E3 : Rle (Rabs ((X *m Y) i j)) S.
  { rewrite mxE. apply: Rle_trans (sum_abs _) _. apply: sum_le => l. toR. rewrite Rabs_mult. apply: Rmult_le_compat; try exact: Rabs_pos.
    exact: (proj2 (HX i l)). exact: (proj2 (HY l j)). }
  split; last by apply: Rle_trans E3 _; clear -T0; lra.
  rewrite [mul_f _ _ _ _ _]mxE. move: D E1 E2. set d := dot _ _. set q := \sum_l Xf i l * Yf l j. set q' := (X *m Y) i j. set w := \sum_(i0 < p) Rabs _.
  move=> D E1 E2. have := Rabs_triang (Rminus d q) (Rminus q q'). rewrite (_ : Rplus (Rminus d q) (Rminus q q') = Rminus d q'); last by ring. move=> T.
  have W : Rle (Rmult (Rmult (Rdiv 101 100) (Rmult (INR p + 1) u64)) w) (Rmult (Rmult (Rdiv 101 100) vN) (Rmult (Rdiv 11 10) S)).
  { have P0 := pos_INR p. apply: Rmult_le_compat => //.
    - toR. apply: Rmult_le_pos; first lra. apply: Rmult_le_pos; lra.
    - apply: sum_ge0 => l. exact: Rabs_pos.
    - apply: Rmult_le_compat_l; first lra. rewrite /vN. toR. apply: Rmult_le_compat_r; lra. }
  have Z : Rle (Rmult (3 * INR p) eta64) (Rmult (Rmult 3 vN) tiny64).
  { rewrite eta_tiny /vN -Rmult_assoc. have P0 := pos_INR p. toR. apply: Rmult_le_compat_r; first lra. nra. }
  have Z2 : Rle (Rmult (Rmult 3 vN) tiny64) (Rmult (Rmult (Rplus (Rplus a b) 3) vN) tiny64).
  { apply: Rmult_le_compat_r; first lra. apply: Rmult_le_compat_r; lra. }
  have Z3 : Rle 0 (Rmult vN S) by apply: Rmult_le_pos; lra.
  clearbody d q q' w S. toR. nra.
Qed.

Lemma size_mul_tiny m k n (A : 'M[R]_(m, k)) (B : 'M[R]_(k, n)) i j : Rle tiny64 (size_mul A B i j).
Proof.
  rewrite /size_mul mxE [const_mx _ _ _]mxE. have : Rle 0 ((map_mx Rabs A *m map_mx Rabs B) i j).
  { rewrite mxE. apply: sum_ge0 => l. rewrite !mxE. toR. apply: Rmult_le_pos; exact: Rabs_pos. }
  move: (_ i j) => w W. move: W. toR => W. lra.
Qed.
Lemma size_mul_abs m k n (A : 'M[R]_(m, k)) (B : 'M[R]_(k, n)) : size_mul (map_mx Rabs A) B = size_mul A B.
Proof. rewrite /size_mul. congr (_ *m _ + _). apply/matrixP => i j. rewrite !mxE. exact: Rabs_Rabsolu. Qed.
Lemma size_mul_abs' m k n (A : 'M[R]_(m, k)) (B : 'M[R]_(k, n)) : size_mul A (map_mx Rabs B) = size_mul A B.
Proof. rewrite /size_mul. congr (_ *m _ + _). apply/matrixP => i j. rewrite !mxE. exact: Rabs_Rabsolu. Qed.

Variables (n m : nat).
Hypothesis Hn : (n <= N)%N.
Hypothesis Hm : (m <= N)%N.
Variables (x : 'cV[R]_n) (P : 'M[R]_n) (z : 'cV[R]_m) (H : 'M[R]_(m, n)) (Rk : 'M[R]_m) (K : 'M[R]_(n, m)).
Ltac nm a b := first [have := @near_mul _ _ _ a b | idtac].

Lemma near_A : near 6 (map_mx r (1%:M - mul_f dot K H)) (1%:M - K *m H) (size_A H K).
Proof.
  have A := @near_mul _ _ _ 0 0 _ _ _ _ _ _ Hm _ _ _ _ (near_refl K) (near_refl H). rewrite size_mul_abs size_mul_abs' in A.
  have I : near 3 (1%:M : 'M[R]_n) 1%:M 1%:M.
  { apply: (@near_le _ _ 0); first rlra. have := near_refl (1%:M : 'M[R]_n). rewrite (_ : map_mx Rabs 1%:M = 1%:M) //.
    apply/matrixP => i j. rewrite !mxE. case: (i == j); [exact: Rabs_R1|exact: Rabs_R0]. }
  have A' : near 3 (mul_f dot K H) (K *m H) (size_mul K H) by apply: (near_le _ (A _ _ _ _)); rlra.
  have := @near_add _ _ 3 _ _ _ _ _ _ _ _ _ I (near_opp A'). rewrite (_ : Rplus 3 3 = IZR 6); last by rlra. apply; try rlra.
  right=> i j. exact: size_mul_tiny.
Qed.
Lemma near_cov : near 21 (map_mx r (mul_f dot (mul_f dot (map_mx r (1%:M - mul_f dot K H)) P) (map_mx r (1%:M - mul_f dot K H))^T + mul_f dot (mul_f dot K Rk) K^T))
  (joseph P H Rk K) (update_size P H Rk K).
Proof.
  have A := near_A. set Af := map_mx r (1%:M - _) in A *.
  have B : near 9 (mul_f dot Af P) ((1%:M - K *m H) *m P) (size_mul (size_A H K) P).
  { have := @near_mul _ _ _ 6 0 _ _ _ _ _ _ Hn _ _ _ _ A (near_refl P). rewrite size_mul_abs'. move=> Q. apply: (near_le _ (Q _ _ _ _)); rlra. }
  have C : near 18 (mul_f dot (mul_f dot Af P) Af^T) ((1%:M - K *m H) *m P *m (1%:M - K *m H)^T) (size_mul (size_mul (size_A H K) P) (size_A H K)^T).
  { have Q := @near_mul _ _ _ 9 6 _ _ _ _ _ _ Hn _ _ _ _ B (near_tr A). apply: (near_le _ (Q _ _ _ _)); rlra. }
  have D : near 3 (mul_f dot K Rk) (K *m Rk) (size_mul K Rk).
  { have := @near_mul _ _ _ 0 0 _ _ _ _ _ _ Hm _ _ _ _ (near_refl K) (near_refl Rk). rewrite size_mul_abs size_mul_abs'. move=> Q. apply: (near_le _ (Q _ _ _ _)); rlra. }
  have E : near 18 (mul_f dot (mul_f dot K Rk) K^T) (K *m Rk *m K^T) (size_mul (size_mul K Rk) K^T).
  { have := @near_mul _ _ _ 3 0 _ _ _ _ _ _ Hm _ _ _ _ D (near_refl K^T). rewrite size_mul_abs'. move=> Q. apply: (near_le _ (Q _ _ _ _)); rlra. }
  have Q := @near_add _ _ 18 _ _ _ _ _ _ _ _ _ C E. apply: (near_le _ (Q _ _ _)); try rlra. right=> i j. exact: size_mul_tiny.
Qed.
Lemma near_state : near 12 (map_mx r (x + mul_f dot K (map_mx r (z - mul_f dot H x)))) (x + K *m (z - H *m x)) (state_size H K x z).
Proof.
  have A : near 3 (mul_f dot H x) (H *m x) (size_mul H x).
  { have := @near_mul _ _ _ 0 0 _ _ _ _ _ _ Hn _ _ _ _ (near_refl H) (near_refl x). rewrite size_mul_abs size_mul_abs'. move=> Q. apply: (near_le _ (Q _ _ _ _)); rlra. }
  have B : near 6 (map_mx r (z - mul_f dot H x)) (z - H *m x) (map_mx Rabs z + size_mul H x).
  { have Z : near 3 z z (map_mx Rabs z) by apply: (near_le _ (near_refl z)); rlra.
    have Q := @near_add _ _ 3 _ _ _ _ _ _ _ _ _ Z (near_opp A). apply: (near_le _ (Q _ _ _)); try rlra. right=> i j. exact: size_mul_tiny. }
  have C : near 9 (mul_f dot K (map_mx r (z - mul_f dot H x))) (K *m (z - H *m x)) (size_mul K (map_mx Rabs z + size_mul H x)).
  { have := @near_mul _ _ _ 0 6 _ _ _ _ _ _ Hm _ _ _ _ (near_refl K) B. rewrite size_mul_abs. move=> Q. apply: (near_le _ (Q _ _ _ _)); rlra. }
  have X : near 9 x x (map_mx Rabs x) by apply: (near_le _ (near_refl x)); rlra.
  have Q := @near_add _ _ 9 _ _ _ _ _ _ _ _ _ X C. apply: (near_le _ (Q _ _ _)); try rlra. right=> i j. exact: size_mul_tiny.
Qed.
Lemma near_innov : near 9 (map_mx r (mul_f dot (mul_f dot H P) H^T + Rk)) (H *m P *m H^T + Rk) (innov_size P H Rk).
Proof.
  have A : near 3 (mul_f dot H P) (H *m P) (size_mul H P).
  { have := @near_mul _ _ _ 0 0 _ _ _ _ _ _ Hn _ _ _ _ (near_refl H) (near_refl P). rewrite size_mul_abs size_mul_abs'. move=> Q. apply: (near_le _ (Q _ _ _ _)); rlra. }
  have B : near 6 (mul_f dot (mul_f dot H P) H^T) (H *m P *m H^T) (size_mul (size_mul H P) H^T).
  { have := @near_mul _ _ _ 3 0 _ _ _ _ _ _ Hn _ _ _ _ A (near_refl H^T). rewrite size_mul_abs'. move=> Q. apply: (near_le _ (Q _ _ _ _)); rlra. }
  have X : near 6 Rk Rk (map_mx Rabs Rk) by apply: (near_le _ (near_refl Rk)); rlra.
  have Q := @near_add _ _ 6 _ _ _ _ _ _ _ _ _ B X. apply: (near_le _ (Q _ _ _)); try rlra. left=> i j. exact: size_mul_tiny.
Qed.
Lemma near_gain (Si : 'M[R]_m) : near 6 (mul_f dot (mul_f dot P H^T) Si) (P *m H^T *m Si) (size_mul (size_mul P H^T) Si).
Proof.
  have A : near 3 (mul_f dot P H^T) (P *m H^T) (size_mul P H^T).
  { have := @near_mul _ _ _ 0 0 _ _ _ _ _ _ Hn _ _ _ _ (near_refl P) (near_refl H^T). rewrite size_mul_abs size_mul_abs'. move=> Q. apply: (near_le _ (Q _ _ _ _)); rlra. }
  have := @near_mul _ _ _ 3 0 _ _ _ _ _ _ Hm _ _ _ _ A (near_refl Si). rewrite size_mul_abs'. move=> Q. apply: (near_le _ (Q _ _ _ _)); rlra.
Qed.
End Near.

(** ** The computed update is the update for the computed gain *)
Lemma update_f_split r dot n m inv (x : 'cV[R]_n) (P : 'M[R]_n) (z : 'cV[R]_m) (H : 'M[R]_(m, n)) (Rk : 'M[R]_m) xf Pf :
  filterUpdate_f r dot inv x P z H Rk = Ret (xf, Pf) -> exists K, gain_f r dot inv P H Rk = Ret K /\
  xf = map_mx r (x + mul_f dot K (map_mx r (z - mul_f dot H x))) /\
  Pf = map_mx r (mul_f dot (mul_f dot (map_mx r (1%:M - mul_f dot K H)) P) (map_mx r (1%:M - mul_f dot K H))^T + mul_f dot (mul_f dot K Rk) K^T).
Proof. rewrite /filterUpdate_f. case: (gain_f _ _ _ _ _ _) => //= K [<- <-]. by exists K. Qed.

Lemma update_own_gain r dot N n m inv (x : 'cV[R]_n) (P : 'M[R]_n) (z : 'cV[R]_m) (H : 'M[R]_(m, n)) (Rk : 'M[R]_m) xf Pf :
  rnd_ok r -> dot_ok dot -> Rle (INR N) 1000000 -> (n <= N)%N -> (m <= N)%N -> filterUpdate_f r dot inv x P z H Rk = Ret (xf, Pf) ->
  exists K, gain_f r dot inv P H Rk = Ret K /\
  (forall i, Rle (Rabs (Rminus (xf i ord0) ((x + K *m (z - H *m x))%R i ord0))) (Rmult (Rmult 12 (Rmult (INR N + 1) u64)) (state_size H K x z i ord0))) /\
  (forall i j, Rle (Rabs (Rminus (Pf i j) (((1%:M - K *m H) *m P *m (1%:M - K *m H)^T + K *m Rk *m K^T)%R i j)))
                   (Rmult (Rmult 21 (Rmult (INR N + 1) u64)) (update_size P H Rk K i j))).
Proof.
  move=> Hr Hd HN Hn Hm E. have [K [EK [-> ->]]] := update_f_split E. exists K. split=> //. split=> [i|i j].
  - exact: (proj1 (near_state Hr Hd HN Hn Hm x z H K i ord0)).
  - exact: (proj1 (near_cov Hr Hd HN Hn Hm P H Rk K i j)).
Qed.

Lemma update_second_order r dot N n m inv (x x1 xe : 'cV[R]_n) (P P1 Pe : 'M[R]_n) (z : 'cV[R]_m) (H : 'M[R]_(m, n)) (Rk : 'M[R]_m) xf Pf :
  rnd_ok r -> dot_ok dot -> Rle (INR N) 1000000 -> (n <= N)%N -> (m <= N)%N -> symmetric P -> symmetric Rk ->
  filterUpdate (DV x) (DM P) (DV z) (DM H) (DM Rk) (DV x1) (DM P1) = Ret (true, (DV xe, DM Pe)) ->
  filterUpdate_f r dot inv x P z H Rk = Ret (xf, Pf) ->
  exists K, gain_f r dot inv P H Rk = Ret K /\
  let S := H *m P *m H^T + Rk in let D := K - P *m H^T *m invmx S in
  forall i j, Rle (Rabs (Rminus (Pf i j) ((Pe + D *m S *m D^T)%R i j))) (Rmult (Rmult 21 (Rmult (INR N + 1) u64)) (update_size P H Rk K i j)).
Proof.
  move=> Hr Hd HN Hn Hm SP SR. rewrite update_ok. case: ifP => // U E EF. have EPe : joseph P H Rk (gain P H Rk) = Pe.
  { have E2 : DM (joseph P H Rk (gain P H Rk)) = DM Pe by congruence. exact: DM_inj E2. }
  have [K [EK [_ B]]] := update_own_gain Hr Hd HN Hn Hm EF. exists K. split=> // S D i j.
  have Q := joseph_optimal U SP SR K. rewrite EPe in Q. have := B i j. rewrite -/(joseph P H Rk K) Q. exact.
Qed.

(** ** Never optimistic *)
Lemma qf_sum n (A : 'M[R]_n) (y : 'cV[R]_n) : qf A y = \sum_j \sum_i y i ord0 * A i j * y j ord0.
Proof.
  rewrite /qf mxE. apply: eq_bigr => j _. rewrite mxE mulr_suml. apply: eq_bigr => i _. by rewrite [y^T _ _]mxE.
Qed.
Lemma qf_abs n (E B : 'M[R]_n) (y : 'cV[R]_n) : (forall i j, Rle (Rabs (E i j)) (B i j)) -> Rle (Rabs (qf E y)) (qf B (map_mx Rabs y)).
Proof.
  move=> H. rewrite !qf_sum. apply: Rle_trans (sum_abs _) _. apply: sum_le => j. apply: Rle_trans (sum_abs _) _. apply: sum_le => i.
  rewrite !mxE. toR. rewrite !Rabs_mult. apply: Rmult_le_compat_r; first exact: Rabs_pos. apply: Rmult_le_compat_l; first exact: Rabs_pos. exact: H.
Qed.
Lemma update_honest r dot N n m inv (x x1 xe : 'cV[R]_n) (P P1 Pe : 'M[R]_n) (z : 'cV[R]_m) (H : 'M[R]_(m, n)) (Rk : 'M[R]_m) xf Pf :
  rnd_ok r -> dot_ok dot -> Rle (INR N) 1000000 -> (n <= N)%N -> (m <= N)%N -> psd P -> psd Rk ->
  filterUpdate (DV x) (DM P) (DV z) (DM H) (DM Rk) (DV x1) (DM P1) = Ret (true, (DV xe, DM Pe)) ->
  filterUpdate_f r dot inv x P z H Rk = Ret (xf, Pf) ->
  exists K, gain_f r dot inv P H Rk = Ret K /\
  forall y, Rle (Rminus (qf Pe y) (Rmult (Rmult 21 (Rmult (INR N + 1) u64)) (qf (update_size P H Rk K) (map_mx Rabs y)))) (qf Pf y).
Proof.
  move=> Hr Hd HN Hn Hm HP HR E EF. have [K [EK B]] := update_second_order Hr Hd HN Hn Hm (proj1 HP) (proj1 HR) E EF. exists K. split=> // y.
  cbv zeta in B. move: B. set S := H *m P *m H^T + Rk. set D := K - P *m H^T *m invmx S. move=> B.
  set c := Rmult 21 _ in B *. set T := update_size _ _ _ _ in B *.
  have Q : Rle (Rabs (qf (Pf - (Pe + D *m S *m D^T)) y)) (qf (c *: T) (map_mx Rabs y)).
  { apply: qf_abs => i j. rewrite !mxE. have := B i j. rewrite !mxE. exact. }
  have Z : Rle 0 (qf (D *m S *m D^T) y).
  { exact: (proj2 (psd_congr D (psdD (psd_congr H HP) HR)) y). }
  rewrite qfB qfD in Q. have ES : qf (c *: T) (map_mx Rabs y) = Rmult c (qf T (map_mx Rabs y)).
  { by rewrite /qf -scalemxAr -scalemxAl mxE. }
  rewrite ES in Q. move: Q Z. move: (qf Pf y) (qf Pe y) (qf (D *m S *m D^T) y) (qf T _) => a b d t Q Z.
  have := Rle_abs (Ropp (Rminus a (Rplus b d))). rewrite Rabs_Ropp. lra.
Qed.

(** ** One measurement *)
Section Inv.
Local Open Scope R_scope.
Lemma inv_scal u t v r s sf Z : (forall a, Rabs (r a - a) <= u * Rabs a + u * t) -> 0 < u <= v -> 0 < t -> 0 < s -> t * s <= 1 -> s <= Z -> 100 * v * (Z / s) <= 1 -> Rabs (sf - s) <= 9 * v * Z ->
  0 < sf /\ Rabs (s * r (1 / sf) - 1) <= 12.1 * v * (Z / s) /\ Rabs (r (1 / sf)) <= 1.2 / s.
Proof.
  move=> Hr Hu Ht Hs Hts HZ Hq HE. set q := Z / s in Hq *.
  have EZ : Z = q * s by rewrite /q; field; lra.
  have q1 : 1 <= q. { rewrite /q. apply: (Rmult_le_reg_r s) => //. rewrite /Rdiv Rmult_assoc Rinv_l; lra. }
  have vq : v <= v * q by nra.
  rewrite EZ in HE. have HE2 : Rabs (sf - s) <= 9 * (v * q) * s by rewrite (_ : 9 * (v * q) * s = 9 * v * (q * s)) //; ring.
  set w := v * q in vq HE2. have w1 : w <= 1 / 100 by rewrite /w; lra. have w0 : 0 < w by nra.
  have ws : w * s <= 1 / 100 * s by nra.
  have sf0 : 91 / 100 * s <= sf by have X := Flocq.Core.Raux.Rabs_le_inv _ _ HE2; nra.
  have sfp : 0 < sf by lra. split=> //.
  have I : 0 < 1 / sf by apply: Rdiv_lt_0_compat; lra.
  have A := Hr (1 / sf). rewrite (Rabs_right (1 / sf)) in A; last by lra.
  have F : 1 / sf <= 1.1 / s.
  { apply: (Rmult_le_reg_r (sf * s)); first nra. rewrite (_ : 1 / sf * (sf * s) = s); last by field; lra. rewrite (_ : 1.1 / s * (sf * s) = 1.1 * sf); last by field; lra. lra. }
  have G : Rabs (s * (1 / sf) - 1) <= 9 * w * 1.1.
  { rewrite (_ : s * (1 / sf) - 1 = - (sf - s) * (1 / sf)); last by field; lra. rewrite Rabs_mult Rabs_Ropp (Rabs_right (1 / sf)); last by lra.
    apply: Rle_trans (Rmult_le_compat _ _ _ _ (Rabs_pos _) _ HE2 F) _; first lra. rewrite (_ : 9 * w * s * (1.1 / s) = 9 * w * 1.1); last by field; lra. exact: Rle_refl. }
  have J : s * Rabs (r (1 / sf) - 1 / sf) <= 2.1 * w.
  { apply: Rle_trans (Rmult_le_compat_l s _ _ _ A) _; first lra.
    have X1 : s * (1 / sf) <= 1.1. { apply: Rle_trans (Rmult_le_compat_l s _ _ _ F) _; first lra. rewrite (_ : s * (1.1 / s) = 1.1); last by field; lra. exact: Rle_refl. }
    rewrite (_ : s * (u * (1 / sf) + u * t) = u * (s * (1 / sf)) + u * (t * s)); last by ring. nra. }
  have L : Rabs (s * r (1 / sf) - 1) <= 12.1 * w.
  { rewrite (_ : s * r (1 / sf) - 1 = s * (r (1 / sf) - 1 / sf) + (s * (1 / sf) - 1)); last by ring. apply: Rle_trans (Rabs_triang _ _) _.
    rewrite Rabs_mult (Rabs_right s); lra. }
  split; first by rewrite (_ : 12.1 * v * q = 12.1 * w) // /w; ring.
  have M : Rabs (s * r (1 / sf)) <= 1.2. { have := Rabs_triang (s * r (1 / sf) - 1) 1. rewrite (_ : s * r (1 / sf) - 1 + 1 = s * r (1 / sf)); last by ring. rewrite Rabs_R1. lra. }
  rewrite Rabs_mult (Rabs_right s) in M; last by lra. apply: (Rmult_le_reg_l s) => //. rewrite (_ : s * (1.2 / s) = 1.2) //. field. lra.
Qed.
Lemma gain_scal v q s w p k si t : 0 < v -> 0 < t -> 0 < s -> 1 <= q -> Rabs p <= w -> Rabs (k - p * si) <= 6 * v * (w * Rabs si + t) ->
  Rabs (s * si - 1) <= 12.1 * v * q -> Rabs si <= 1.2 / s -> Rabs (k - p / s) <= 21 * v * q * (w / s + t).
Proof.
  move=> v0 t0 s0 q1 pw K A B. have w0 : 0 <= w by have := Rabs_pos p; lra.
  have ws : 0 <= w / s by apply: Rmult_le_pos => //; left; exact: Rinv_0_lt_compat.
  have C : Rabs (p * si - p / s) <= 12.1 * v * q * (w / s).
  { rewrite (_ : p * si - p / s = (s * si - 1) * (p / s)); last by field; lra. rewrite Rabs_mult. apply: Rmult_le_compat => //; try exact: Rabs_pos.
    rewrite /Rdiv Rabs_mult (Rabs_right (/ s)); last by left; exact: Rinv_0_lt_compat. apply: Rmult_le_compat_r => //. left. exact: Rinv_0_lt_compat. }
  have D : w * Rabs si <= 1.2 * (w / s). { apply: Rle_trans (Rmult_le_compat_l w _ _ w0 B) _. rewrite (_ : w * (1.2 / s) = 1.2 * (w / s)); first exact: Rle_refl. by field; lra. }
  have E : 6 * v * (w * Rabs si + t) <= 7.2 * v * (w / s + t) by nra.
  have F : v * (w / s + t) <= v * q * (w / s + t). { have : 0 <= v * (w / s + t) by apply: Rmult_le_pos; lra. nra. }
  have G : 0 <= v * q * t by apply: Rmult_le_pos; [apply: Rmult_le_pos|]; lra.
  have G2 : 0 <= v * q * (w / s) by apply: Rmult_le_pos; [apply: Rmult_le_pos|]; lra.
  move: (w / s) ws C D E F G2 => g ws C D E F G2.
  have := Rabs_triang (k - p * si) (p * si - p / s). rewrite (_ : k - p * si + (p * si - p / s) = k - p / s); last by ring. lra.
Qed.
End Inv.

Lemma div_back (a s : R) : s <> R0 -> a = Rdiv (Rmult a s) s.
Proof. move=> E. field. exact: E. Qed.
Lemma mul_3 (a b s : R) : Rmult (Rmult a s) b = Rmult s (Rmult a b).
Proof. ring. Qed.
Section Single.
Variables (r : R -> R) (dot : dot_fun) (N n : nat).
Hypotheses (Hr : rnd_ok r) (Hd : dot_ok dot) (HN : Rle (INR N) 1000000) (Hn : (n <= N)%N) (H1 : (1 <= N)%N).
Variables (P : 'M[R]_n) (H : 'rV[R]_n) (Rk : 'M[R]_1).
Let S : R := (H *m P *m H^T + Rk)%R ord0 ord0.
Let q : R := Rdiv (innov_size P H Rk ord0 ord0) S.
Hypotheses (S0 : Rlt 0 S) (S1 : Rle S (Rinv tiny64)) (Hq : Rle (Rmult (Rmult 100 (vN N)) q) 1).

Lemma S_le : Rle S (innov_size P H Rk ord0 ord0).
Proof. have [_ A] := near_innov Hr Hd HN Hn P H Rk ord0 ord0. apply: Rle_trans A. exact: Rle_abs. Qed.
Lemma q_ge1 : Rle 1 q.
Proof. rewrite /q. apply: (Rmult_le_reg_r S) => //. rewrite /Rdiv Rmult_assoc Rinv_l; last exact: Rgt_not_eq. rewrite Rmult_1_r Rmult_1_l. exact: S_le. Qed.

Lemma single_gain : exists K, gain_f r dot (inv1_f r) P H Rk = Ret K /\
  forall i, Rle (Rabs (Rminus (K i ord0) (Rdiv ((P *m H^T) i ord0) S)))
                (Rmult (Rmult (Rmult 21 (vN N)) q) (Rplus (Rdiv (size_mul P H^T i ord0) S) tiny64)).
Proof.
  have [V0 [V1 V2]] := vN_bounds HN. have [U0 U1] := u64_bounds. have T0 := tiny_pos.
  rewrite /gain_f /inv1_f. set Sf := map_mx r _.
  have [A _] := near_innov Hr Hd HN Hn P H Rk ord0 ord0. rewrite -/Sf -/S in A.
  have TS : Rle (Rmult tiny64 S) 1.
  { have := Rmult_le_compat_l tiny64 _ _ (Rlt_le _ _ T0) S1. rewrite Rinv_r; [exact|exact: Rgt_not_eq]. }
  have [B0 [B1 B2]] := @inv_scal u64 tiny64 (vN N) r S (Sf ord0 ord0) (innov_size P H Rk ord0 ord0)
    (fun a => eq_ind _ (fun e => Rle _ (Rplus _ e)) (Hr a) _ eta_tiny) (conj U0 V2) T0 S0 TS S_le Hq A.
  rewrite /Rdivc. case: Req_EM_T => [E|_]; first by rewrite E in B0; exfalso; lra.
  eexists. split; first reflexivity. move=> i. set Si := const_mx _.
  have G := near_gain Hd HN Hn H1 P H Si i ord0. move: G => [G _].
  have EW : size_mul (size_mul P H^T) Si i ord0 = Rplus (Rmult (size_mul P H^T i ord0) (Rabs (r (Rdiv 1 (Sf ord0 ord0))))) tiny64.
  { rewrite /size_mul [LHS]mxE [(map_mx Rabs _ *m _) _ _]mxE big_ord1 [map_mx Rabs (_ + _) _ _]mxE [map_mx Rabs Si _ _]mxE.
    rewrite [Si _ _]mxE [const_mx _ _ _]mxE. congr (_ + _). toR. congr Rmult. apply: Rabs_right. apply: Rle_ge. apply: Rle_trans (Rlt_le _ _ T0) _. exact: size_mul_tiny. }
  have EP : (P *m H^T *m Si) i ord0 = Rmult ((P *m H^T) i ord0) (r (Rdiv 1 (Sf ord0 ord0))).
  { rewrite [LHS]mxE big_ord1 [Si _ _]mxE. by []. }
  rewrite EW EP in G.
  apply: (@gain_scal (vN N) q S (size_mul P H^T i ord0) ((P *m H^T) i ord0) _ (r (Rdiv 1 (Sf ord0 ord0))) tiny64) => //; first exact: q_ge1.
  have := @near_mul dot Hd N HN _ _ _ 0 0 _ _ _ _ _ _ Hn _ _ _ _ (near_refl N P) (near_refl N H^T) i ord0.
  rewrite size_mul_abs size_mul_abs'. move=> Q. apply: (proj2 (Q _ _ _ _)); rlra.
Qed.

Let Sm := H *m P *m H^T + Rk.
Lemma Sm_unit : Sm \in unitmx.
Proof. rewrite [Sm]mx11_scalar unitmxE det_scalar1 unitfE. apply/eqP. exact: Rgt_not_eq. Qed.
Lemma gain_single i : gain P H Rk i ord0 = Rdiv ((P *m H^T) i ord0) S.
Proof.
  have E := gainS Sm_unit. have := f_equal (fun M : 'cV[R]_n => M i ord0) E. cbv beta => <-. move: (gain P H Rk) => g. rewrite [(g *m _) _ _]mxE big_ord1 -/S. apply: div_back. exact: Rgt_not_eq.
Qed.
Lemma single_update (x x1 : 'cV[R]_n) (z : 'M[R]_1) (P1 : 'M[R]_n) : symmetric P ->
  exists (xe : 'cV[R]_n) (Pe : 'M[R]_n) (xf : 'cV[R]_n) (Pf : 'M[R]_n) (K : 'cV[R]_n), filterUpdate (DV x) (DM P) (DV z) (DM H) (DM Rk) (DV x1) (DM P1) = Ret (true, (DV xe, DM Pe)) /\
  filterUpdate_f r dot (inv1_f r) x P z H Rk = Ret (xf, Pf) /\ gain_f r dot (inv1_f r) P H Rk = Ret K /\
  let G i := Rplus (Rdiv (size_mul P H^T i ord0) S) tiny64 in
  (forall i, Rle (Rabs (Rminus (K i ord0) (Rdiv ((P *m H^T) i ord0) S))) (Rmult (Rmult (Rmult 21 (vN N)) q) (G i))) /\
  (forall i j, Rle (Rabs (Rminus (Pf i j) (Pe i j)))
    (Rplus (Rmult (Rmult 21 (vN N)) (update_size P H Rk K i j))
           (Rmult S (Rmult (Rmult (Rmult (Rmult 21 (vN N)) q) (G i)) (Rmult (Rmult (Rmult 21 (vN N)) q) (G j)))))).
Proof.
  move=> SP. have SR : symmetric Rk by exact: tr11. have [K [EK BK]] := single_gain.
  have EU := update_ok x x1 z P P1 H Rk. rewrite Sm_unit in EU.
  have [xf [Pf EF]] : exists xf Pf, filterUpdate_f r dot (inv1_f r) x P z H Rk = Ret (xf, Pf) by rewrite /filterUpdate_f EK /=; eexists; eexists.
  have [K' [EK' BP]] := update_second_order Hr Hd HN Hn H1 SP SR EU EF.
  have KK : K' = K by congruence. subst K'.
  eexists; eexists; exists xf, Pf, K. split; first exact: EU. split=> //. split=> //. move=> G. split=> // i j.
  have := BP i j. cbv zeta. set D := K - _. move=> B. rewrite -/(vN N) in B. set t := Rmult (Rmult 21 _) (update_size _ _ _ _ _ _) in B *.
  have ED : (D *m Sm *m D^T) i j = Rmult S (Rmult (D i ord0) (D j ord0)).
  { rewrite mxE big_ord1 [(D *m Sm) _ _]mxE big_ord1 [D^T _ _]mxE. exact: mul_3. }
  have Di k : Rle (Rabs (D k ord0)) (Rmult (Rmult (Rmult 21 (vN N)) q) (G k)).
  { rewrite /D mxE [(- _ : 'M_(_, _)) _ _]mxE -/(gain P H Rk) gain_single. exact: BK. }
  move: B. rewrite [(_ + _ : 'M_n) i j]mxE ED. set pe := joseph _ _ _ _ i j. set e := Rmult S _. move=> B.
  have Ee : Rle (Rabs e) (Rmult S (Rmult (Rmult (Rmult (Rmult 21 (vN N)) q) (G i)) (Rmult (Rmult (Rmult 21 (vN N)) q) (G j)))).
  { rewrite /e !Rabs_mult (Rabs_right S); last by left. apply: Rmult_le_compat_l; first by left. apply: Rmult_le_compat; try exact: Rabs_pos; exact: Di. }
  have := Rabs_triang (Rminus (Pf i j) (Rplus pe e)) e. rewrite (_ : Rplus (Rminus (Pf i j) (Rplus pe e)) e = Rminus (Pf i j) pe); last by ring.
  move=> T. apply: Rle_trans T _. exact: Rplus_le_compat.
Qed.
End Single.

(** ** Without rounding *)
Lemma update_exact n m (x x1 : 'cV[R]_n) (P P1 : 'M[R]_n) (z : 'cV[R]_m) (H : 'M[R]_(m, n)) (Rk : 'M[R]_m) :
  filterUpdate (DV x) (DM P) (DV z) (DM H) (DM Rk) (DV x1) (DM P1) =
  bind (filterUpdate_f id (fun k a b => \sum_(i < k) a i * b i) (fun S => if S \in unitmx then Ret (invmx S) else NonFinite) x P z H Rk)
       (fun y => Ret (true, (DV y.1, DM y.2))).
Proof.
  rewrite update_ok /filterUpdate_f /gain_f.
  have E m' k p (A : 'M[R]_(m', k)) (B : 'M[R]_(k, p)) : mul_f (fun k a b => \sum_(i < k) a i * b i) A B = A *m B by apply/matrixP => i j; rewrite !mxE.
  have I p k (A : 'M[R]_(p, k)) : map_mx id A = A by apply/matrixP => i j; rewrite mxE.
  rewrite !E !I. case: ifP => //= _. by rewrite !E !I.
Qed.

(** ** A case in doubles *)
Lemma size2 m p (A : 'M[R]_(m, 2)) (B : 'M[R]_(2, p)) i j : size_mul A B i j =
  Rplus (Rplus (Rmult (Rabs (A i 0)) (Rabs (B 0 j))) (Rmult (Rabs (A i 1)) (Rabs (B 1 j)))) tiny64.
Proof.
  rewrite /size_mul [LHS]mxE [const_mx _ _ _]mxE. congr (_ + _). rewrite mxE !big_ord_recr big_ord0 /= add0r !mxE.
  rewrite (_ : widen_ord (leqnSn 1) ord_max = 0); last exact: val_inj. by rewrite (_ : ord_max = 1); last exact: val_inj.
Qed.
Lemma size1 m p (A : 'M[R]_(m, 1)) (B : 'M[R]_(1, p)) i j : size_mul A B i j = Rplus (Rmult (Rabs (A i ord0)) (Rabs (B ord0 j))) tiny64.
Proof. by rewrite /size_mul [LHS]mxE [const_mx _ _ _]mxE mxE big_ord1 !mxE. Qed.
Lemma mul2e m p (A : 'M[R]_(m, 2)) (B : 'M[R]_(2, p)) i j : (A *m B) i j = Rplus (Rmult (A i 0) (B 0 j)) (Rmult (A i 1) (B 1 j)).
Proof.
  rewrite mxE !big_ord_recr big_ord0 /= add0r. rewrite (_ : widen_ord (leqnSn 1) ord_max = 0); last exact: val_inj. by rewrite (_ : ord_max = 1); last exact: val_inj.
Qed.
Lemma tiny_small : Rle tiny64 (Rdiv 1 1000000000).
Proof.
  rewrite /tiny64. have E := eta_mu2. have M := mu_le. have M0 := mu_pos. have [U0 U1] := u64_bounds. have UV := u64_val.
  apply: (Rmult_le_reg_r u64) => //. rewrite /Rdiv Rmult_assoc Rinv_l; last by lra. rewrite Rmult_1_r. have X : Rle (Rmult mu mu) (Rdiv 1 1000000) by nra. have := Rmult_le_compat_l u64 _ _ (Rlt_le _ _ U0) X. lra.
Qed.
Definition P2 : 'M[R]_2 := mx2 2 1 1 1.
Definition H2 : 'rV[R]_2 := \row_j (if j == 0 then R1 else R0).
Definition R2 : 'M[R]_1 := const_mx R1.
Section Case.
Local Open Scope R_scope.
Lemma case_numbers t u k0 : 0 < t <= 1 / 1000000000 -> u = / 9007199254740992 -> Rabs (k0 - 2 / 3) <= 1 / 10 ->
  21 * (3 * u) * ((((1 + (Rabs k0 + t)) * 2 + t * 1 + t) * (1 + (Rabs k0 + t)) + ((1 + (Rabs k0 + t)) * 1 + t * 1 + t) * t + t) + ((Rabs k0 * 1 + t) * Rabs k0 + t)) <= 9 / 100000000000000.
Proof.
  move=> T -> A. have B : Rabs k0 <= 8 / 10. { have := Rabs_triang (k0 - 2 / 3) (2 / 3). rewrite (_ : k0 - 2 / 3 + 2 / 3 = k0); last by ring. rewrite (Rabs_right (2 / 3)); lra. }
  have B0 := Rabs_pos k0. move: (Rabs k0) B B0 => k B B0.
  have A1 : 1 + (k + t) <= 181 / 100 by lra. have A0 : 0 <= 1 + (k + t) by lra. move: (1 + (k + t)) A1 A0 => a A1 A0.
  have X1 : (a * 2 + t * 1 + t) * a <= 6.6 by nra. have X2 : (a * 1 + t * 1 + t) * t <= 1 / 100 by nra. have X3 : (k * 1 + t) * k <= 7 / 10 by nra. lra.
Qed.
Lemma case_abs k t : 0 <= k -> 0 < t ->
  (Rabs ((1 + (k + t)) * Rabs 2 + t * Rabs 1 + t) * Rabs (1 + (k + t)) + Rabs ((1 + (k + t)) * Rabs 1 + t * Rabs 1 + t) * Rabs t + t) + (Rabs (k * Rabs 1 + t) * k + t) =
  (((1 + (k + t)) * 2 + t * 1 + t) * (1 + (k + t)) + ((1 + (k + t)) * 1 + t * 1 + t) * t + t) + ((k * 1 + t) * k + t).
Proof.
  move=> K T. rewrite Rabs_R1 (Rabs_right 2); last lra. rewrite (Rabs_right t); last lra.
  rewrite (Rabs_right (1 + (k + t))); last lra. rewrite (Rabs_right (_ * 2 + _ + _)); last lra. rewrite (Rabs_right (_ * 1 + _ + _)); last lra.
  by rewrite (Rabs_right (k * 1 + t)); last lra.
Qed.
End Case.

Lemma case_update (x x1 : 'cV[R]_2) (z : 'M[R]_1) (P1 : 'M[R]_2) : exists (xe : 'cV[R]_2) (Pe : 'M[R]_2) (xf : 'cV[R]_2) (Pf : 'M[R]_2),
  filterUpdate (DV x) (DM P2) (DV z) (DM H2) (DM R2) (DV x1) (DM P1) = Ret (true, (DV xe, DM Pe)) /\ Pe 0 0 = Rdiv 2 3 /\
  filterUpdate_f rnd64 (@dot_loop rnd64) (inv1_f rnd64) x P2 z H2 R2 = Ret (xf, Pf) /\ Rle (Rabs (Rminus (Pf 0 0) (Rdiv 2 3))) (Rdiv 1 10000000000000).
Proof.
  have T0 := tiny_pos. have T1 := tiny_small. have UV := u64_val. have [U0 U1] := u64_bounds.
  have N2 : Rle (INR 2) 1000000 by rewrite /=; lra.
  have V2 : vN 2 = Rmult 3 u64 by rewrite /vN /=; toR; lra.
  have SP : symmetric P2. { apply/matrixP => i j. rewrite !mxE. by case: (i == 0); case: (j == 0). }
  have ES : (H2 *m P2 *m H2^T + R2) ord0 ord0 = IZR 3.
  { rewrite [LHS]mxE !mul2e !mxE /=. toR. lra. }
  have EI : innov_size P2 H2 R2 ord0 ord0 = Rplus (Rplus 3 tiny64) tiny64.
  { rewrite /innov_size [LHS]mxE !size2 !mxE /=. toR. rewrite !Rabs_R1 !Rabs_R0. rewrite !(Rabs_right (Rplus _ _)); lra. }
  have S1 : Rle (IZR 3) (Rinv tiny64).
  { apply: (Rmult_le_reg_r tiny64) => //. rewrite Rinv_l; lra. }
  have Q3 : Rle (Rdiv (innov_size P2 H2 R2 ord0 ord0) 3) (Rdiv 11 10) by rewrite EI; lra.
  have Q0 : Rle 0 (Rdiv (innov_size P2 H2 R2 ord0 ord0) 3) by rewrite EI; lra.
  have Z0 : Rlt 0 ((H2 *m P2 *m H2^T + R2)%R ord0 ord0) by rewrite ES; lra.
  have Z1 : Rle ((H2 *m P2 *m H2^T + R2)%R ord0 ord0) (Rinv tiny64) by rewrite ES.
  have Z2 : Rle (Rmult (Rmult 100 (vN 2)) (Rdiv (innov_size P2 H2 R2 ord0 ord0) ((H2 *m P2 *m H2^T + R2)%R ord0 ord0))) 1 by rewrite ES V2 UV; lra.
  have [xe [Pe [xf [Pf [K [E1 [E2 [E3]]]]]]]] := @single_update rnd64 (@dot_loop rnd64) 2 2 rnd64_rnd_ok (dot_loop_ok rnd64_rnd_ok) N2 isT isT P2 H2 R2 Z0 Z1 Z2 x x1 z P1 SP.
  rewrite ES V2 => /= -[BK BP].
  have EG0 : Rle (Rplus (Rdiv (size_mul P2 H2^T 0 ord0) 3) tiny64) 1.
  { rewrite size2 !mxE /=. toR. rewrite !Rabs_R1 !Rabs_R0 (Rabs_right 2); lra. }
  have EG1 : Rle (Rplus (Rdiv (size_mul P2 H2^T 1 ord0) 3) tiny64) 1.
  { rewrite size2 !mxE /=. toR. rewrite !Rabs_R1 !Rabs_R0. lra. }
  have EG0' : Rle 0 (Rplus (Rdiv (size_mul P2 H2^T 0 ord0) 3) tiny64) by have := size_mul_tiny P2 H2^T 0 ord0; lra.
  move: (Rplus (Rdiv (size_mul P2 H2^T 0 ord0) 3) tiny64) EG0 EG0' (BK 0) (BP 0 0) => g G1 G0 BK0 BP0.
  move: (Rdiv (innov_size P2 H2 R2 ord0 ord0) 3) Q0 Q3 BK0 BP0 => q Q0 Q3.
  have -> : (P2 *m H2^T) 0 ord0 = IZR 2 by rewrite mul2e !mxE /=; toR; lra.
  have -> : update_size P2 H2 R2 K 0 0 = Rplus (Rplus (Rplus (Rmult (Rplus (Rplus (Rmult (Rplus 1 (Rplus (Rabs (K 0 ord0)) tiny64)) 2) (Rmult tiny64 1)) tiny64) (Rplus 1 (Rplus (Rabs (K 0 ord0)) tiny64)))
     (Rmult (Rplus (Rplus (Rmult (Rplus 1 (Rplus (Rabs (K 0 ord0)) tiny64)) 1) (Rmult tiny64 1)) tiny64) tiny64)) tiny64) (Rplus (Rmult (Rplus (Rmult (Rabs (K 0 ord0)) 1) tiny64) (Rabs (K 0 ord0))) tiny64).
  { have K0 := Rabs_pos (K 0 ord0).
    have A00 : size_A H2 K 0 0 = Rplus 1 (Rplus (Rabs (K 0 ord0)) tiny64) by rewrite /size_A mxE size1 !mxE /=; move: (Rabs _) => a; toR; rewrite Rabs_R1 Rmult_1_r.
    have A01 : size_A H2 K 0 1 = tiny64 by rewrite /size_A mxE size1 !mxE /=; move: (Rabs (K _ _)) => a; rewrite mulr0n; toR; rewrite Rabs_R0 Rmult_0_r !Rplus_0_l.
    have B j : size_mul (size_A H2 K) P2 0 j = Rplus (Rplus (Rmult (Rplus 1 (Rplus (Rabs (K 0 ord0)) tiny64)) (Rabs (P2 0 j))) (Rmult tiny64 (Rabs (P2 1 j)))) tiny64.
    { rewrite size2 A00 A01. move: (P2 0 j) (P2 1 j) (Rabs (K 0 ord0)) K0 => p0 p1 k K0. rewrite (Rabs_right (Rplus 1 _)); last by clear -K0 T0; lra. by rewrite (Rabs_right tiny64); last by clear -T0; lra. }
    rewrite /update_size mxE size2 size1 !B [(size_A H2 K)^T 0 0]mxE [(size_A H2 K)^T 1 0]mxE A00 A01 size1 [K^T _ _]mxE.
    rewrite ![P2 _ _]mxE [R2 _ _]mxE /=. exact: case_abs. }
  move: (K 0 ord0) => k BK0.
  have P1' : Rle (Rmult (Rmult (Rmult 21 (Rmult 3 u64)) q) g) (Rdiv 1 10000000000000).
  { have : Rle (Rmult q g) (Rdiv 11 10) by nra. rewrite UV. nra. }
  have P0' : Rle 0 (Rmult (Rmult (Rmult 21 (Rmult 3 u64)) q) g) by apply: Rmult_le_pos; [apply: Rmult_le_pos; [clear -U0; lra|exact: Q0]|exact: G0].
  move: (Rmult _ g) P1' P0' BK0 => w W1 W0 BK0 BP0.
  have EP : Pe 0 0 = Rdiv 2 3.
  { have U : H2 *m P2 *m H2^T + R2 \in unitmx by exact: Sm_unit Z0.
    have E := update_ok x x1 z P2 P1 H2 R2. rewrite E1 U (joseph_gain' U) in E.
    have -> : Pe = (1%:M - gain P2 H2 R2 *m H2) *m P2 by apply: DM_inj; congruence.
    have A0 : (1%:M - gain P2 H2 R2 *m H2) 0 0 = Rdiv 1 3.
    { rewrite mxE [(- _ : 'M_2) _ _]mxE [(_ *m H2) _ _]mxE big_ord1 (gain_single Z0) ES mul2e !mxE /= mulr1n. toR. lra. }
    have A1 : (1%:M - gain P2 H2 R2 *m H2) 0 1 = R0.
    { rewrite mxE [(- _ : 'M_2) _ _]mxE [(_ *m H2) _ _]mxE big_ord1 (gain_single Z0) ES mul2e !mxE /= mulr0n. toR. lra. }
    rewrite mul2e A0 A1 !mxE /=. lra. }
  exists xe, Pe, xf, Pf. split; [exact: E1|split; [exact: EP|split; [exact: E2|]]]. rewrite EP in BP0.
  have C := @case_numbers tiny64 u64 k (conj T0 T1) UV (Rle_trans _ _ _ BK0 _). apply: Rle_trans BP0 _.
  have W2 : Rle (Rmult w w) (Rdiv 1 1000000000000000) by nra.
  have := C ltac:(lra). lra.
Qed.
