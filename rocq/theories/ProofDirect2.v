(** Two states measured directly with equal noise. *)
From Coq Require Import Reals Lra.
From mathcomp Require Import all_ssreflect all_algebra.
From Verif Require Import Base BaseMx ModelEigen ModelKalman ModelLuMx ModelFilterFloat ModelUpdateFloat SpecFloatOps SpecKalman SpecBls SpecLdltFloat SpecFilterFloat SpecUpdateFloat SpecLuFloat
  ProofMx ProofKalman ProofKalman2 ProofStrapdownFloat ProofLopsided ProofLongFloat2 ProofFilterFloat ProofUpdateFloat ProofDirect ProofLuMx.
Set Implicit Arguments.
Unset Strict Implicit.
Unset Printing Implicit Defensive.
Import GRing.Theory.
Local Open Scope ring_scope.

Section Scal2.
Local Open Scope R_scope.
Variables (t b v T c d : R).
Hypotheses (b1 : 1 <= b) (t0 : 0 < t) (tb : t * (b * b * b) <= / 1000000000000000000) (v0 : 0 < v <= 2 / 1000000000) (HT : inside b T) (Hd : inside b d).
Hypotheses (c1 : 1 <= c) (dc : d * d + T * T <= c * c * (T * T)) (vc : 30000 * v * (c * c * c) <= 1).
Lemma T_pos2 : 0 < T. Proof. exact: (in_pos b1 HT). Qed.
Lemma d_pos2 : 0 < d. Proof. exact: (in_pos b1 Hd). Qed.
Lemma dcT : d <= c * T.
Proof. have T0 := T_pos2. have d0 := d_pos2. have TT : 0 < T * T by nra. apply: Rsqr_incr_0_var; last nra. rewrite /Rsqr. nra. Qed.
Lemma c3 : 1 <= c * c * c /\ c * c <= c * c * c.
Proof. have : 1 <= c * c by nra. nra. Qed.
Lemma two_q Z q : q = 24 * v * (8 * Z) / (T * T) -> 0 <= Z <= d * d + T * T + 2 * t -> 0 <= q <= 193 * (v * (c * c)) /\ 2 * q <= 1.
Proof.
  move=> Eq HZ. have T0 := T_pos2. have TT : 0 < T * T by nra. have A := t_two b1 t0 tb HT HT. have [C3 C4] := c3.
  have Z1 : Z <= 1001 / 1000 * (c * c * (T * T)). { have : T * T <= c * c * (T * T) by rewrite -{1}(Rmult_1_l (T * T)); apply: Rmult_le_compat_r; nra. lra. }
  have q0 : 0 <= q. { rewrite Eq. apply: Rmult_le_pos; last by left; exact: Rinv_0_lt_compat. nra. }
  have Q : q <= 193 * (v * (c * c)).
  { rewrite Eq. apply: (Rmult_le_reg_r (T * T)) => //. rewrite /Rdiv Rmult_assoc Rinv_l; last lra. rewrite Rmult_1_r. have := Rmult_le_compat_l v _ _ (Rlt_le _ _ (proj1 v0)) Z1. have : 0 <= v * (c * c * (T * T)). { apply: Rmult_le_pos; first lra. apply: Rmult_le_pos; nra. } lra. }
  split=> //. have : v * (c * c) <= v * (c * c * c) by apply: Rmult_le_compat_l; lra. lra.
Qed.
Lemma two_dK q e row g : 0 <= q <= 193 * (v * (c * c)) -> inside b e -> 0 <= row <= 2 * (e * d) + 2 * t -> g = 5 / 2 * q * (row / (T * T) + t) -> 0 <= g <= 967 * (v * (c * c * c)) * (e / T).
Proof.
  move=> Hq He Hrow ->. have T0 := T_pos2. have d0 := d_pos2. have e0 := in_pos b1 He. have TT : 0 < T * T by nra. have A := t_two b1 t0 tb He Hd. have B := t_div b1 t0 tb He HT. have D := dcT.
  have eT : 0 < e / T by apply: Rdiv_lt_0_compat. have R0 : 0 <= row / (T * T) by apply: Rmult_le_pos; [lra|left; exact: Rinv_0_lt_compat].
  have R1 : row / (T * T) <= 20001 / 10000 * (c * (e / T)).
  { apply: (Rmult_le_reg_r (T * T)) => //. rewrite (_ : row / (T * T) * (T * T) = row); last by field; lra. rewrite (_ : 20001 / 10000 * (c * (e / T)) * (T * T) = 20001 / 10000 * (e * (c * T))); last by field; lra.
    have : e * d <= e * (c * T) by apply: Rmult_le_compat_l; lra. lra. }
  have ceT : e / T <= c * (e / T) by rewrite -{1}(Rmult_1_l (e / T)); apply: Rmult_le_compat_r; lra.
  have R2 : row / (T * T) + t <= 20002 / 10000 * (c * (e / T)) by lra.
  split; first by apply: Rmult_le_pos; lra.
  apply: Rle_trans (Rmult_le_compat (5 / 2 * q) (5 / 2 * (193 * (v * (c * c)))) _ _ _ _ _ R2) _; try lra.
  rewrite (_ : 5 / 2 * (193 * (v * (c * c))) * (20002 / 10000 * (c * (e / T))) = (4825 / 10) * (20002 / 10000) * (v * (c * c * c) * (e / T))); last by field; lra. rewrite (_ : 967 * (v * (c * c * c)) * (e / T) = 967 * (v * (c * c * c) * (e / T))); last by ring. apply: Rmult_le_compat_r; last lra.
  apply: Rmult_le_pos; last lra. have [C3 _] := c3. nra.
Qed.
Lemma two_k e ke k g : inside b e -> 0 <= g <= 967 * (v * (c * c * c)) * (e / T) -> Rabs ke <= e / T -> Rabs (k - ke) <= g -> Rabs k <= 104 / 100 * (e / T).
Proof.
  move=> He Hg K1 K2. have T0 := T_pos2. have e0 := in_pos b1 He. have eT : 0 < e / T by apply: Rdiv_lt_0_compat.
  have G : 967 * (v * (c * c * c)) * (e / T) <= 4 / 100 * (e / T) by apply: Rmult_le_compat_r; lra.
  have := Rabs_triang (k - ke) ke. rewrite (_ : k - ke + ke = k); last ring. lra.
Qed.
(** Sums over the factor 1 + |K| |H| of the Joseph form. *)
Lemma two_M di dj k0 k1 p p0 p1 s n : inside b di -> inside b dj -> 0 <= k0 <= 104 / 100 * (di / T) -> 0 <= k1 <= 104 / 100 * (di / T) -> 0 <= p <= di * dj -> 0 <= p0 <= d * dj -> 0 <= p1 <= d * dj -> 0 <= n <= 1000000 -> 0 <= s <= n * (b * dj) ->
  p + k0 * p0 + k1 * p1 + t * s + t <= 309 / 100 * c * (di * dj).
Proof.
  move=> Hi Hj H0 H1 Hp P0 P1 Hn Hs. have T0 := T_pos2. have Pi := in_pos b1 Hi. have Pj := in_pos b1 Hj. have A := t_two b1 t0 tb Hi Hj. have B := t_one b1 t0 tb v0 Hi. have D := dcT. have d0 := d_pos2.
  have F k q : 0 <= k <= 104 / 100 * (di / T) -> 0 <= q <= d * dj -> k * q <= 104 / 100 * (c * (di * dj)).
  { move=> Hk Hq. have : k * q <= 104 / 100 * (di / T) * (c * T * dj). { apply: Rmult_le_compat; try lra. apply: Rle_trans (proj2 Hq) _. apply: Rmult_le_compat_r; lra. }
    rewrite (_ : 104 / 100 * (di / T) * (c * T * dj) = 104 / 100 * (c * (di * dj))) //. field. lra. }
  have E : t * s <= / 1000000000000 * (di * dj).
  { apply: Rle_trans (Rmult_le_compat_l t _ _ _ (proj2 Hs)) _; first lra. rewrite (_ : t * (n * (b * dj)) = n * (t * b) * dj); last by ring.
    rewrite -(Rmult_assoc (/ 1000000000000)). apply: Rmult_le_compat_r; first lra. have : n * (t * b) <= 1000000 * (/ 1000000000000000000 * di) by apply: Rmult_le_compat; try lra; nra. lra. }
  have F0 := F _ _ H0 P0. have F1 := F _ _ H1 P1. have ij : 0 < di * dj by nra. have cij : di * dj <= c * (di * dj) by nra. nra.
Qed.
Lemma two_MM di dj k0 k1 m m0 m1 s n : inside b di -> inside b dj -> 0 <= k0 <= 104 / 100 * (dj / T) -> 0 <= k1 <= 104 / 100 * (dj / T) -> 0 <= m <= 309 / 100 * c * (di * dj) -> 0 <= m0 <= 309 / 100 * c * (di * d) -> 0 <= m1 <= 309 / 100 * c * (di * d) ->
  0 <= n <= 1000000 -> 0 <= s <= n * (309 / 100 * c * (di * b)) -> m + k0 * m0 + k1 * m1 + t * s + t <= 954 / 100 * (c * c) * (di * dj).
Proof.
  move=> Hi Hj H0 H1 Hm M0 M1 Hn Hs. have T0 := T_pos2. have Pi := in_pos b1 Hi. have Pj := in_pos b1 Hj. have A := t_two b1 t0 tb Hi Hj. have B := t_one b1 t0 tb v0 Hj. have D := dcT. have d0 := d_pos2.
  have ij : 0 < di * dj by nra. have cij : di * dj <= c * (di * dj) by nra. have ccij : c * (di * dj) <= c * c * (di * dj) by nra.
  have F k q : 0 <= k <= 104 / 100 * (dj / T) -> 0 <= q <= 309 / 100 * c * (di * d) -> k * q <= 32136 / 10000 * (c * c * (di * dj)).
  { move=> Hk Hq. have : k * q <= 104 / 100 * (dj / T) * (309 / 100 * c * (di * (c * T))). { apply: Rmult_le_compat; try lra. apply: Rle_trans (proj2 Hq) _. apply: Rmult_le_compat_l; first lra. apply: Rmult_le_compat_l; lra. }
    rewrite (_ : 104 / 100 * (dj / T) * (309 / 100 * c * (di * (c * T))) = 32136 / 10000 * (c * c * (di * dj))) //. field. lra. }
  have E : t * s <= / 100000000000 * (c * (di * dj)).
  { apply: Rle_trans (Rmult_le_compat_l t _ _ _ (proj2 Hs)) _; first lra. rewrite (_ : t * (n * (309 / 100 * c * (di * b))) = 309 / 100 * (n * (t * b)) * (c * di)); last by field.
    rewrite (_ : / 100000000000 * (c * (di * dj)) = / 100000000000 * dj * (c * di)); last by field. apply: Rmult_le_compat_r; first nra. have : n * (t * b) <= 1000000 * (/ 1000000000000000000 * dj) by apply: Rmult_le_compat; try lra; nra. lra. }
  have F0 := F _ _ H0 M0. have F1 := F _ _ H1 M1. lra.
Qed.
Lemma two_R di dj a0 a1 b0 b2 : inside b di -> inside b dj -> 0 <= a0 <= 104 / 100 * (di / T) -> 0 <= a1 <= 104 / 100 * (di / T) -> 0 <= b0 <= 104 / 100 * (dj / T) -> 0 <= b2 <= 104 / 100 * (dj / T) ->
  (a0 * (T * T) + t) * b0 + (a1 * (T * T) + t) * b2 + t <= 217 / 100 * (c * c) * (di * dj).
Proof.
  move=> Hi Hj A0 A1 B0 B2. have T0 := T_pos2. have Pi := in_pos b1 Hi. have Pj := in_pos b1 Hj. have A := t_two b1 t0 tb Hi Hj. have B := t_two b1 t0 tb Hi HT.
  have ij : 0 < di * dj by nra. have cij : di * dj <= c * c * (di * dj). { rewrite -{1}(Rmult_1_l (di * dj)). apply: Rmult_le_compat_r; nra. }
  have F a q : 0 <= a <= 104 / 100 * (di / T) -> 0 <= q <= 104 / 100 * (dj / T) -> (a * (T * T) + t) * q <= 10817 / 10000 * (di * dj).
  { move=> Ha Hq. have C : a * (T * T) + t <= 104001 / 100000 * (di * T).
    { have : a * (T * T) <= 104 / 100 * (di / T) * (T * T) by apply: Rmult_le_compat_r; nra. rewrite (_ : 104 / 100 * (di / T) * (T * T) = 104 / 100 * (di * T)); last by field; lra. nra. }
    have C0 : 0 <= a * (T * T) + t by nra. have : (a * (T * T) + t) * q <= 104001 / 100000 * (di * T) * (104 / 100 * (dj / T)) by apply: Rmult_le_compat; lra.
    rewrite (_ : 104001 / 100000 * (di * T) * (104 / 100 * (dj / T)) = 10816104 / 10000000 * (di * dj)); last by field; lra. lra. }
  have F0 := F _ _ A0 B0. have F1 := F _ _ A1 B2. lra.
Qed.
Lemma two_P di dj us gi gj S : inside b di -> inside b dj -> 0 <= us <= 1171 / 100 * (c * c) * (di * dj) -> 0 <= gi <= 967 * (v * (c * c * c)) * (di / T) -> 0 <= gj <= 967 * (v * (c * c * c)) * (dj / T) -> 0 <= S <= 4 * (d * d + T * T) ->
  21 * v * us + gi * gj * S <= (246 * v * (c * c) + 1934 * v * (c * c * c * c) * (1934 * v * (c * c * c * c))) * (di * dj).
Proof.
  move=> Hi Hj Hu Hgi Hgj HS. have T0 := T_pos2. have Pi := in_pos b1 Hi. have Pj := in_pos b1 Hj. have TT : 0 < T * T by nra.
  have A : gi * gj <= 967 * (v * (c * c * c)) * (di / T) * (967 * (v * (c * c * c)) * (dj / T)) by apply: Rmult_le_compat; lra.
  have B : gi * gj * S <= 967 * (v * (c * c * c)) * (di / T) * (967 * (v * (c * c * c)) * (dj / T)) * (4 * (c * c * (T * T))) by apply: Rmult_le_compat; try lra; apply: Rmult_le_pos; lra.
  rewrite (_ : 967 * (v * (c * c * c)) * (di / T) * (967 * (v * (c * c * c)) * (dj / T)) * (4 * (c * c * (T * T))) = 1934 * v * (c * c * c * c) * (1934 * v * (c * c * c * c)) * (di * dj)) in B; last by field; lra.
  have E : v * us <= v * (1171 / 100 * (c * c) * (di * dj)) by apply: Rmult_le_compat_l; lra.
  have F : 0 <= v * (c * c) * (di * dj) by apply: Rmult_le_pos; nra. nra.
Qed.
Lemma two_x di k0 k1 g x z0 z1 y0 y1 n0 n1 : inside b di -> 0 <= k0 <= 104 / 100 * (di / T) -> 0 <= k1 <= 104 / 100 * (di / T) -> 0 <= g <= 967 * (v * (c * c * c)) * (di / T) -> 0 <= x -> 0 <= z0 -> 0 <= z1 -> 0 <= y0 -> 0 <= y1 -> 0 <= n0 <= z0 + y0 -> 0 <= n1 <= z1 + y1 ->
  12 * v * (x + (k0 * (z0 + (y0 + t)) + k1 * (z1 + (y1 + t)) + t)) + g * (n0 + n1) <= 12 * v * (x + t) + 980 * v * (c * c * c) * (di / T * (z0 + z1 + y0 + y1 + 2 * t)).
Proof.
  move=> Hi H0 H1 Hg x0 Z0 Z1 Y0 Y1 N0 N1. have T0 := T_pos2. have Pi := in_pos b1 Hi. have e0 : 0 < di / T by apply: Rdiv_lt_0_compat. have [C3 _] := c3.
  have A0 : k0 * (z0 + (y0 + t)) <= 104 / 100 * (di / T) * (z0 + (y0 + t)) by apply: Rmult_le_compat_r; lra.
  have A1 : k1 * (z1 + (y1 + t)) <= 104 / 100 * (di / T) * (z1 + (y1 + t)) by apply: Rmult_le_compat_r; lra.
  set A := z0 + z1 + y0 + y1 + 2 * t. have PA : 0 <= A by rewrite /A; lra.
  have B : k0 * (z0 + (y0 + t)) + k1 * (z1 + (y1 + t)) <= 104 / 100 * (di / T * A) by rewrite /A; lra.
  have C : g * (n0 + n1) <= 967 * (v * (c * c * c)) * (di / T) * A by apply: Rmult_le_compat; rewrite /A; lra.
  have D : 0 <= di / T * A by apply: Rmult_le_pos; lra. have E : v * (di / T * A) <= v * (c * c * c) * (di / T * A).
  { apply: Rmult_le_compat_r => //. rewrite -{1}(Rmult_1_r v). apply: Rmult_le_compat_l; lra. }
  have F := Rmult_le_compat_l v _ _ (Rlt_le _ _ (proj1 v0)) B. clearbody A. nra.
Qed.
End Scal2.

Section Scal3.
Local Open Scope R_scope.
Lemma split_b (e a0 a1 q0 q1 t f : R) : (e + (a0 * q0 + a1 * q1 + t)) * f = e * f + a0 * (q0 * f) + a1 * (q1 * f) + t * f. Proof. ring. Qed.
Lemma row_le x s p T : 0 < T -> T * T * s <= p -> x * x <= s -> forall e, 0 <= e -> p <= e * e -> Rabs x <= e / T.
Proof.
  move=> T0 A B e e0 C. have X : Rabs x * Rabs x = x * x by rewrite -Rabs_mult Rabs_right //; apply: Rle_ge; exact: Rle_0_sqr.
  apply: (Rmult_le_reg_r T) => //. rewrite (_ : e / T * T = e); last by field; lra. apply: Rsqr_incr_0_var => //. rewrite /Rsqr. have TT : 0 < T * T by nra. have : T * T * (x * x) <= T * T * s by apply: Rmult_le_compat_l; lra.
  rewrite -X. lra.
Qed.
End Scal3.

(** A row of the gain of the filter, against the noise. *)
Lemma gain_row n m (P : 'M[R]_n) (H : 'M[R]_(m, n)) (w : R) i l e T : psd P -> Rlt 0 T -> w = Rmult T T -> Rle 0 e -> Rle (P i i) (Rmult e e) -> H *m P *m H^T + w%:M \in unitmx ->
  Rle (Rmult (Rmult T T) (\sum_k Rmult (gain P H w%:M i k) (gain P H w%:M i k))) (P i i) /\ Rle (Rabs (gain P H w%:M i l)) (Rdiv e T).
Proof.
  move=> HP T0 Ew e0 He US. have TT : Rlt 0 (Rmult T T) by apply: Rmult_lt_0_compat. set K := gain _ _ _.
  have HR : psd (w%:M : 'M[R]_m).
  { split; first exact: tr_scalar_mx. move=> y. rewrite /qf -scalemx1 -scalemxAr mulmx1 -scalemxAl mxE mxE. toR. apply: Rmult_le_pos; first by rewrite Ew; lra. apply: ProofFilterFloat.sum_ge0 => k. rewrite mxE. exact: Rle_0_sqr. }
  have EU := update_ok (0 : 'cV[R]_n) 0 (0 : 'cV[R]_m) P 0 H w%:M. rewrite US in EU.
  have SH := update_shrinks EU HP HR. have A := SH (delta_mx i 0). rewrite /qf !delta_entry in A.
  have Q : Rle 0 (((1%:M - K *m H) *m P *m (1%:M - K *m H)^T) i i) by apply: diag_ge0; apply: psd_congr.
  have W : (K *m w%:M *m K^T) i i = Rmult (Rmult T T) (\sum_k Rmult (K i k) (K i k)).
  { rewrite mul_mx_scalar -scalemxAl mxE mxE -Ew. congr (_ * _). apply: eq_bigr => k _. by rewrite [K^T _ _]mxE. }
  have M : Rle (Rmult (Rmult T T) (\sum_k Rmult (K i k) (K i k))) (P i i).
  { rewrite -W. rewrite /joseph [(_ + _ : 'M_n) i i]mxE -/K in A. toR. move: A Q. toR. move: (((1%:M - K *m H) *m P *m (1%:M - K *m H)^T) i i) ((K *m w%:M *m K^T) i i) (P i i) => a c d. lra. }
  split=> //. apply: (row_le T0 M _ e0 He). rewrite (bigD1 l) //=. have : Rle 0 (\sum_(k < m | k != l) Rmult (K i k) (K i k)).
  { elim/big_ind: _ => [|a b|k _]; [exact: Rle_refl|exact: Rplus_le_le_0_compat|exact: Rle_0_sqr]. }
  toR. move: (\sum_(k < m | _) _) => a. lra.
Qed.

Section Direct2.
Variables (r : R -> R) (dot : dot_fun) (msub : R -> nat -> (nat -> R) -> (nat -> R) -> R) (N n : nat).
Hypotheses (Hr : rel_ok r) (Hd : dot_ok dot) (Hs : msub_ok msub) (HN : Rle (INR N) 1000000) (Hn : (n <= N)%N) (H2 : (2 <= N)%N).
Variables (P : 'M[R]_n) (o : 'I_2 -> 'I_n) (w : R) (D : 'I_n -> R) (T b c d : R).
Let H : 'M[R]_(2, n) := \matrix_(l, j) (j == o l)%:R.
Let Rk : 'M[R]_2 := w%:M.
Let v := vN N.
Hypotheses (b1 : Rle 1 b) (tb : Rle (Rmult tiny64 (Rmult (Rmult b b) b)) (Rinv 1000000000000000000)).
Hypotheses (HP : psd P) (PD : forall i, Rle (P i i) (Rmult (D i) (D i))) (HD : forall i, inside b (D i)) (HT : inside b T) (Ed : inside b d) (Do : forall l, Rle (D (o l)) d).
Hypotheses (Ew : w = Rmult T T) (c1 : Rle 1 c) (dc : Rle (Rplus (Rmult d d) (Rmult T T)) (Rmult (Rmult c c) (Rmult T T))) (vc : Rle (Rmult (Rmult 30000 v) (Rmult (Rmult c c) c)) 1).

Lemma D2_pos i : Rlt 0 (D i). Proof. exact: (in_pos b1 (HD i)). Qed.
Lemma v2_bounds : Rlt 0 v /\ Rle v (Rdiv 2 1000000000).
Proof. have [A [B _]] := vN_bounds HN. by []. Qed.
Hypothesis PDD : forall i j, Rle (Rabs (P i j)) (Rmult (D i) (D j)).
Lemma Po i l : Rle (Rabs (P i (o l))) (Rmult (D i) d).
Proof. apply: Rle_trans (PDD _ _) _. apply: Rmult_le_compat_l; first by left; exact: D2_pos. exact: Do. Qed.
Lemma oP j l : Rle (Rabs (P (o l) j)) (Rmult d (D j)).
Proof. apply: Rle_trans (PDD _ _) _. apply: Rmult_le_compat_r; first by left; exact: D2_pos. exact: Do. Qed.
Lemma oPo l k : Rle (Rabs (P (o l) (o k))) (Rmult d d).
Proof. apply: Rle_trans (PDD _ _) _. apply: Rmult_le_compat; try exact: Do; left; exact: D2_pos. Qed.
Lemma absH l k : Rabs (H l k) = if o l == k then R1 else R0.
Proof. rewrite /H mxE eq_sym. case: eqP => _; by rewrite ?Rabs_R1 ?Rabs_R0. Qed.
Lemma o_sum (f : 'I_n -> R) l : \sum_k Rmult (Rabs (H l k)) (f k) = f (o l).
Proof. rewrite -(pick (o l) f). apply: eq_bigr => k _. by rewrite absH. Qed.
Lemma o_sum' (f : 'I_n -> R) l : \sum_k Rmult (f k) (Rabs (H l k)) = f (o l).
Proof. rewrite -(o_sum f l). apply: eq_bigr => k _. exact: Rmult_comm. Qed.
Lemma size_Ho m (X : 'M[R]_(n, m)) l j : size_mul H X l j = Rplus (Rabs (X (o l) j)) tiny64.
Proof. by rewrite size_at (o_sum (fun k => Rabs (X k j))). Qed.
Lemma size_oH m (X : 'M[R]_(m, n)) i l : size_mul X H^T i l = Rplus (Rabs (X i (o l))) tiny64.
Proof. rewrite size_at -(o_sum' (fun k => Rabs (X i k)) l). congr Rplus. apply: eq_bigr => k _. by rewrite [H^T _ _]mxE. Qed.
Lemma abs_t x : Rabs (Rplus (Rabs x) tiny64) = Rplus (Rabs x) tiny64.
Proof. apply: Rabs_right. have := tiny_pos. have := Rabs_pos x. lra. Qed.
Lemma Rk_at l k : Rk l k = if l == k then Rmult T T else R0.
Proof. rewrite mxE Ew. by case: (l == k). Qed.
Lemma TT0 : Rlt 0 (Rmult T T). Proof. have T0 := in_pos b1 HT. exact: Rmult_lt_0_compat. Qed.
Lemma Rk_abs l k : Rle (Rabs (Rk l k)) (Rmult T T) /\ Rabs (Rk l k) = Rk l k.
Proof. have TT := TT0. rewrite Rk_at. have E : Rabs (Rmult T T) = Rmult T T by apply: Rabs_right; lra. case: (l == k); rewrite ?Rabs_R0 ?E; split=> //; lra. Qed.
Lemma innov_two l k : Rle (innov_size P H Rk l k) (Rplus (Rplus (Rmult d d) (Rmult T T)) (Rmult 2 tiny64)).
Proof.
  rewrite /innov_size mxE size_oH size_Ho [map_mx _ _ _ _]mxE abs_t. toR. have := oPo l k. have := proj1 (Rk_abs l k). lra.
Qed.
Lemma keeps_two : keeps (Rmult T T) (H *m P *m H^T + Rk).
Proof.
  have TT := TT0. apply: keeps_noise => //; first lra. move=> y. right. rewrite /qf /Rk Ew -scalemx1 -scalemxAr mulmx1 -scalemxAl mxE mxE. toR. congr Rmult. apply: eq_bigr => k _. by rewrite mxE.
Qed.
Lemma sum_two (f : 'I_2 -> R) : \sum_l f l = Rplus (f ord0) (f (lift ord0 ord0)).
Proof. by rewrite big_ord_recl big_ord1. Qed.
Lemma row_two i : Rle 0 (SpecLuFloat.row_size P H i) /\ Rle (SpecLuFloat.row_size P H i) (Rplus (Rmult 2 (Rmult (D i) d)) (Rmult 2 tiny64)).
Proof.
  rewrite /SpecLuFloat.row_size sum_two !size_oH. have := Po i ord0. have := Po i (lift ord0 ord0). have := Rabs_pos (P i (o ord0)). have := Rabs_pos (P i (o (lift ord0 ord0))). have := tiny_pos. move: (Rabs _) (Rabs _) (Rmult _ _) => a a' e. split; lra.
Qed.
Lemma HPH_at l k : (H *m P *m H^T) l k = P (o l) (o k).
Proof.
  have A j : (H *m P) l j = P (o l) j.
  { rewrite mxE -(pick (o l) (fun q => P q j)). apply: eq_bigr => q _. congr (_ * _). rewrite mxE eq_sym. by case: eqP. }
  rewrite mxE -(pick (o k) (fun q => P (o l) q)). apply: eq_bigr => q _. rewrite A mulrC. congr (_ * _). rewrite !mxE eq_sym. by case: eqP.
Qed.
Lemma S_sum : Rle 0 (\sum_l \sum_k Rabs ((H *m P *m H^T + Rk)%R l k)) /\ Rle (\sum_l \sum_k Rabs ((H *m P *m H^T + Rk)%R l k)) (Rmult 4 (Rplus (Rmult d d) (Rmult T T))).
Proof.
  have A l k : Rle 0 (Rabs ((H *m P *m H^T + Rk)%R l k)) /\ Rle (Rabs ((H *m P *m H^T + Rk)%R l k)) (Rplus (Rmult d d) (Rmult T T)).
  { split; first exact: Rabs_pos. rewrite mxE HPH_at. apply: Rle_trans (Rabs_triang _ _) _. apply: Rplus_le_compat; [exact: oPo|exact: (proj1 (Rk_abs l k))]. }
  rewrite !sum_two. have := A ord0 ord0. have := A ord0 (lift ord0 ord0). have := A (lift ord0 ord0) ord0. have := A (lift ord0 ord0) (lift ord0 ord0). move: (Rabs _) (Rabs _) (Rabs _) (Rabs _) => a0 a1 a2 a3. lra.
Qed.

Section Gain.
Variable K : 'M[R]_(n, 2).
Hypothesis EK : forall i l, Rle 0 (Rabs (K i l)) /\ Rle (Rabs (K i l)) (Rmult (Rdiv 104 100) (Rdiv (D i) T)).
Let a i := Rabs (K i ord0).
Let a' i := Rabs (K i (lift ord0 ord0)).
Lemma sizeA2_at i k : size_A H K i k = Rplus (if i == k then R1 else R0) (Rplus (Rplus (Rmult (a i) (if o ord0 == k then R1 else R0)) (Rmult (a' i) (if o (lift ord0 ord0) == k then R1 else R0))) tiny64).
Proof.
  rewrite /size_A mxE size_at sum_two !absH [(1%:M : 'M[R]_n) _ _]mxE. toR. congr Rplus. by case: eqP.
Qed.
Lemma sizeA2_pos i k : Rle 0 (size_A H K i k).
Proof. rewrite sizeA2_at. have t0 := tiny_pos. have : Rle 0 (a i) by exact: Rabs_pos. have : Rle 0 (a' i) by exact: Rabs_pos. case: (i == k); case: (_ == k); case: (_ == k); lra. Qed.
Lemma sumA2 i (f : 'I_n -> R) : \sum_k Rmult (Rabs (size_A H K i k)) (f k) = Rplus (Rplus (Rplus (f i) (Rmult (a i) (f (o ord0)))) (Rmult (a' i) (f (o (lift ord0 ord0))))) (Rmult tiny64 (\sum_k f k)).
Proof.
  rewrite -(pick i f) -[in Rmult (a i) _](pick (o ord0) f) -[in Rmult (a' i) _](pick (o (lift ord0 ord0)) f) !scale_sum.
  transitivity (\sum_k (Rplus (Rplus (Rplus (Rmult (if i == k then R1 else R0) (f k)) (Rmult (a i) (Rmult (if o ord0 == k then R1 else R0) (f k)))) (Rmult (a' i) (Rmult (if o (lift ord0 ord0) == k then R1 else R0) (f k)))) (Rmult tiny64 (f k)))).
  - apply: eq_bigr => k _. rewrite Rabs_right; last by apply: Rle_ge; exact: sizeA2_pos. rewrite sizeA2_at. exact: split_b.
  - etransitivity; first exact: big_split. congr Rplus. etransitivity; first exact: big_split. congr Rplus. exact: big_split.
Qed.
Lemma n2_le : Rle 0 (INR n) /\ Rle (INR n) 1000000.
Proof. split; first exact: pos_INR. apply: Rle_trans HN. apply: le_INR. exact/leP. Qed.
Lemma M2_le i j : Rle 0 (size_mul (size_A H K) P i j) /\ Rle (size_mul (size_A H K) P i j) (Rmult (Rmult (Rdiv 309 100) c) (Rmult (D i) (D j))).
Proof.
  split; first exact: size_ge0. rewrite size_at sumA2. have Dj := D2_pos j.
  apply: (@two_M tiny64 b v T c d b1 tiny_pos tb v2_bounds HT Ed c1 dc (D i) (D j) (a i) (a' i) _ _ _ _ (INR n)) => //; try exact: EK; try exact: n2_le.
  - split=> //. exact: Rabs_pos.
  - split; [exact: Rabs_pos|exact: oP].
  - split; [exact: Rabs_pos|exact: oP].
  - split; first by apply: ProofFilterFloat.sum_ge0 => k; exact: Rabs_pos. apply: sum_D => k. apply: Rle_trans (PDD k j) _. apply: Rmult_le_compat_r; first lra. exact: (proj2 (HD k)).
Qed.
Lemma M2_o i l : Rle 0 (size_mul (size_A H K) P i (o l)) /\ Rle (size_mul (size_A H K) P i (o l)) (Rmult (Rmult (Rdiv 309 100) c) (Rmult (D i) d)).
Proof.
  have [A B] := M2_le i (o l). split=> //. apply: Rle_trans B _. apply: Rmult_le_compat_l; first lra. apply: Rmult_le_compat_l; [left; exact: D2_pos|exact: Do].
Qed.
Lemma MM2_le i j : Rle (size_mul (size_mul (size_A H K) P) (size_A H K)^T i j) (Rmult (Rmult (Rdiv 954 100) (Rmult c c)) (Rmult (D i) (D j))).
Proof.
  set M := size_mul (size_A H K) P. rewrite size_at.
  rewrite (eq_bigr (fun l => Rmult (Rabs (size_A H K j l)) (M i l))); last first.
  { move=> l _. rewrite [(size_A _ _)^T _ _]mxE (Rabs_right (M i l)); first exact: Rmult_comm. apply: Rle_ge. exact: (proj1 (M2_le i l)). }
  rewrite sumA2. have Di := D2_pos i.
  apply: (@two_MM tiny64 b v T c d b1 tiny_pos tb v2_bounds HT Ed c1 dc (D i) (D j) (a j) (a' j) _ _ _ _ (INR n)) => //; try exact: EK; try exact: n2_le; try exact: M2_le; try exact: M2_o.
  split; first by apply: ProofFilterFloat.sum_ge0 => k; exact: (proj1 (M2_le i k)). apply: sum_D => k. apply: Rle_trans (proj2 (M2_le i k)) _. apply: Rmult_le_compat_l; first lra. apply: Rmult_le_compat_l; first lra. exact: (proj2 (HD k)).
Qed.
Lemma KRK2_le i j : Rle (size_mul (size_mul K Rk) K^T i j) (Rmult (Rmult (Rdiv 217 100) (Rmult c c)) (Rmult (D i) (D j))).
Proof.
  have A l : size_mul K Rk i l = Rplus (Rmult (Rabs (K i l)) (Rmult T T)) tiny64.
  { rewrite size_at. congr Rplus. rewrite -(pick l (fun k => Rmult (Rabs (K i k)) (Rmult T T))). apply: eq_bigr => k _. rewrite (proj2 (Rk_abs k l)) Rk_at eq_sym. case: eqP => _; by rewrite ?Rmult_0_l ?Rmult_0_r ?Rmult_1_l. }
  have TT := TT0. have t0 := tiny_pos. have B l : Rabs (size_mul K Rk i l) = Rplus (Rmult (Rabs (K i l)) (Rmult T T)) tiny64.
  { rewrite A Rabs_right //. apply: Rle_ge. have := Rmult_le_pos _ _ (Rabs_pos (K i l)) (Rlt_le _ _ TT). lra. }
  rewrite size_at sum_two !B ![K^T _ _]mxE. exact: (@two_R tiny64 b v T c b1 tiny_pos tb v2_bounds HT c1 (D i) (D j) _ _ _ _ (HD i) (HD j) (EK i ord0) (EK i (lift ord0 ord0)) (EK j ord0) (EK j (lift ord0 ord0))).
Qed.
Lemma us2_le i j : Rle 0 (update_size P H Rk K i j) /\ Rle (update_size P H Rk K i j) (Rmult (Rmult (Rdiv 1171 100) (Rmult c c)) (Rmult (D i) (D j))).
Proof.
  rewrite /update_size mxE. have A := MM2_le i j. have B := KRK2_le i j. have A0 := size_ge0 (size_mul (size_A H K) P) (size_A H K)^T i j. have B0 := size_ge0 (size_mul K Rk) K^T i j. toR. move: A B A0 B0. move: (size_mul _ _ i j) (size_mul _ _ i j) => e f. lra.
Qed.
Lemma ss2_at (x : 'cV[R]_n) (z : 'cV[R]_2) i : state_size H K x z i ord0 = Rplus (Rabs (x i ord0)) (Rplus (Rplus (Rmult (a i) (Rplus (Rabs (z ord0 ord0)) (Rplus (Rabs (x (o ord0) ord0)) tiny64))) (Rmult (a' i) (Rplus (Rabs (z (lift ord0 ord0) ord0)) (Rplus (Rabs (x (o (lift ord0 ord0)) ord0)) tiny64)))) tiny64).
Proof.
  have B l : Rabs ((map_mx Rabs z + size_mul H x)%R l ord0) = Rplus (Rabs (z l ord0)) (Rplus (Rabs (x (o l) ord0)) tiny64).
  { rewrite mxE [map_mx _ _ _ _]mxE size_Ho Rabs_right //. apply: Rle_ge. have t0 := tiny_pos. have A := Rabs_pos (x (o l) ord0). have B := Rabs_pos (z l ord0). toR. lra. }
  rewrite /state_size mxE [map_mx _ _ _ _]mxE. congr Rplus. by rewrite size_at sum_two !B.
Qed.
End Gain.

Lemma S2_unit : H *m P *m H^T + Rk \in unitmx.
Proof. exact: (keeps_unit keeps_two TT0). Qed.
Lemma direct2_update (x x1 : 'cV[R]_n) (z : 'cV[R]_2) (P1 : 'M[R]_n) :
  exists (xe : 'cV[R]_n) (Pe : 'M[R]_n) (xf : 'cV[R]_n) (Pf : 'M[R]_n), filterUpdate (DV x) (DM P) (DV z) (DM H) (DM Rk) (DV x1) (DM P1) = Ret (true, (DV xe, DM Pe)) /\
  filterUpdate_f r dot (lu_mx r msub) x P z H Rk = Ret (xf, Pf) /\
  (forall i, Rle (Rabs (Rminus (xf i ord0) (xe i ord0))) (Rplus (Rmult (Rmult 12 v) (Rplus (Rabs (x i ord0)) tiny64))
    (Rmult (Rmult (Rmult 980 v) (Rmult (Rmult c c) c)) (Rmult (Rdiv (D i) T) (Rplus (Rplus (Rplus (Rplus (Rabs (z ord0 ord0)) (Rabs (z (lift ord0 ord0) ord0))) (Rabs (x (o ord0) ord0))) (Rabs (x (o (lift ord0 ord0)) ord0))) (Rmult 2 tiny64)))))) /\
  (forall i j, Rle (Rabs (Rminus (Pf i j) (Pe i j)))
    (Rmult (Rplus (Rmult (Rmult 246 v) (Rmult c c)) (Rmult (Rmult (Rmult 1934 v) (Rmult (Rmult (Rmult c c) c) c)) (Rmult (Rmult 1934 v) (Rmult (Rmult (Rmult c c) c) c)))) (Rmult (D i) (D j)))).
Proof.
  have T0 := in_pos b1 HT. have TT := TT0. have t0 := tiny_pos. have dd : Rle 0 (Rmult d d) by exact: Rle_0_sqr.
  set Z := Rplus (Rplus (Rmult d d) (Rmult T T)) (Rmult 2 tiny64). have Z0 : Rle 0 Z by rewrite /Z; lra.
  have [Q1 Q2] := @two_q tiny64 b v T c d b1 tiny_pos tb v2_bounds HT c1 dc vc Z _ erefl (conj Z0 (Rle_refl _)).
  set q := Rdiv _ _ in Q1 Q2. have Eq : q = Rdiv (Rmult (Rmult 24 (Rmult (INR N + 1) u64)) (Rmult (Rmult (INR 2) (pow 2 2)) Z)) (Rmult T T).
  { rewrite /q /v /vN. congr (Rdiv (Rmult _ (Rmult _ _)) _). rewrite /=. lra. }
  have Hq : Rle (Rmult 2 (Rdiv (Rmult (Rmult 24 (Rmult (INR N + 1) u64)) (Rmult (Rmult (INR 2) (pow 2 2)) Z)) (Rmult T T))) 1 by rewrite -Eq.
  have [xe [Pe [xf [Pf [K [E1 [E2 [E3 [BK [BX BP]]]]]]]]]] := mx_update Hr Hd Hs HN Hn H2 keeps_two TT innov_two Hq x x1 z P1 (proj1 HP) (tr_scalar_mx _ _).
  rewrite -Eq in BK BX BP. rewrite -/(vN N) -/v in BX BP.
  have G i : Rle 0 (Rmult (Rmult (Rdiv 5 2) q) (Rplus (Rdiv (SpecLuFloat.row_size P H i) (Rmult T T)) tiny64)) /\ Rle (Rmult (Rmult (Rdiv 5 2) q) (Rplus (Rdiv (SpecLuFloat.row_size P H i) (Rmult T T)) tiny64)) (Rmult (Rmult 967 (Rmult v (Rmult (Rmult c c) c))) (Rdiv (D i) T)).
  { exact: (@two_dK tiny64 b v T c d b1 tiny_pos tb v2_bounds HT Ed c1 dc q (D i) _ _ Q1 (HD i) (row_two i) erefl). }
  have EK i l : Rle 0 (Rabs (K i l)) /\ Rle (Rabs (K i l)) (Rmult (Rdiv 104 100) (Rdiv (D i) T)).
  { split; first exact: Rabs_pos. have [_ A] := gain_row l HP T0 Ew (Rlt_le _ _ (D2_pos i)) (PD i) S2_unit. exact: (@two_k b v T c b1 v2_bounds HT vc (D i) _ (K i l) _ (HD i) (G i) A (BK i l)). }
  exists xe, Pe, xf, Pf. do 2!split=> //. split=> [i|i j].
  - apply: Rle_trans (BX i) _. rewrite ss2_at sum_two.
    have NZ l : Rle 0 (Rabs ((z - H *m x)%R l ord0)) /\ Rle (Rabs ((z - H *m x)%R l ord0)) (Rplus (Rabs (z l ord0)) (Rabs (x (o l) ord0))).
    { split; first exact: Rabs_pos. rewrite mxE [(- _ : 'cV_2) _ _]mxE. have -> : (H *m x) l ord0 = x (o l) ord0.
      { rewrite mxE -(pick (o l) (fun k => x k ord0)). apply: eq_bigr => k _. congr (_ * _). rewrite mxE eq_sym. by case: eqP. }
      exact: abs_minus. }
    apply: (@two_x tiny64 b v T c b1 tiny_pos v2_bounds HT c1 (D i)) => //; try exact: Rabs_pos; by [exact: EK|exact: G|exact: NZ].
  - apply: Rle_trans (BP i j) _. exact: (@two_P b v T c d b1 v2_bounds HT dc (D i) (D j) _ _ _ _ (HD i) (HD j) (us2_le EK i j) (G i) (G j) S_sum).
Qed.
End Direct2.
