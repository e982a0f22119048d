(** A single state measured directly: the sizes in the error bounds of the
    measurement update are then the standard deviations. *)
From Coq Require Import Reals Lra.
From mathcomp Require Import all_ssreflect all_algebra.
From Verif Require Import Base BaseMx ModelEigen ModelKalman ModelFilterFloat ModelUpdateFloat SpecFloatOps SpecKalman SpecFilterFloat SpecUpdateFloat
  ProofMx ProofKalman ProofKalman2 ProofFilterFloat ProofUpdateFloat.
Set Implicit Arguments.
Unset Strict Implicit.
Unset Printing Implicit Defensive.
Import GRing.Theory.
Local Open Scope ring_scope.

Section Scal.
Local Open Scope R_scope.
(** [b] bounds the deviations and their inverses; [t] is far below. *)
Variables (t b v : R).
Hypotheses (b1 : 1 <= b) (t0 : 0 < t) (tb : t * (b * b * b) <= / 1000000000000000000) (v0 : 0 < v <= 2 / 1000000000).
Definition inside (d : R) : Prop := / b <= d <= b.

Lemma in_pos d : inside d -> 0 < d.
Proof. move=> [A _]. apply: Rlt_le_trans A. apply: Rinv_0_lt_compat. lra. Qed.
Lemma tb2 : t * (b * b) <= / 1000000000000000000.
Proof. have : t * (b * b) * 1 <= t * (b * b) * b. { apply: Rmult_le_compat_l; last exact: b1. apply: Rmult_le_pos; nra. } nra. Qed.
Lemma tb1 : t * b <= / 1000000000000000000.
Proof. have := tb2. have : t * b * 1 <= t * b * b. { apply: Rmult_le_compat_l; last exact: b1. nra. } nra. Qed.
Lemma in_inv d : inside d -> inside (/ d).
Proof.
  move=> H. have P := in_pos H. case: H => A B. split.
  - apply: Rinv_le_contravar; lra.
  - rewrite -(Rinv_inv b). apply: Rinv_le_contravar => //. apply: Rinv_0_lt_compat. lra.
Qed.
Lemma t_two d e : inside d -> inside e -> t <= / 1000000000000000000 * (d * e).
Proof.
  move=> Hd He. have Pd := in_pos Hd. have Pe := in_pos He. case: (in_inv Hd) => _ A. case: (in_inv He) => _ B.
  have I : / d * / e <= b * b by apply: Rmult_le_compat => //; left; exact: Rinv_0_lt_compat.
  have Q : t * (/ d * / e) <= / 1000000000000000000 by apply: Rle_trans tb2; apply: Rmult_le_compat_l => //; lra.
  have Pde : 0 < d * e by nra. have := Rmult_le_compat_r (d * e) _ _ (Rlt_le _ _ Pde) Q. rewrite (_ : t * (/ d * / e) * (d * e) = t) //. field. split; lra.
Qed.
Lemma t_div d e : inside d -> inside e -> t <= / 1000000000000000000 * (d / e).
Proof. move=> Hd He. exact: t_two Hd (in_inv He). Qed.
Lemma t_one d : inside d -> t * b <= / 1000000000000000000 * d.
Proof.
  move=> Hd. have Pd := in_pos Hd. case: (in_inv Hd) => _ A. have Q : t * b * / d <= / 1000000000000000000.
  { apply: Rle_trans tb2. rewrite -Rmult_assoc. apply: Rmult_le_compat_l => //. nra. }
  have := Rmult_le_compat_r d _ _ (Rlt_le _ _ Pd) Q. rewrite (_ : t * b * / d * d = t * b) //. field. lra.
Qed.

Variables (T : R).
Hypothesis (HT : inside T).
(** The gain. *)
Lemma scal_G d p : inside d -> 0 <= p <= d * ((101 / 100) * T) -> (p + t) / (T * T) + t <= (102 / 100) * (d / T).
Proof.
  move=> Hd [p0 Hp]. have PT := in_pos HT. have Pd := in_pos Hd. have A := t_two Hd HT. have B := t_div Hd HT.
  have C : (p + t) / (T * T) <= (1011 / 1000) * (d / T).
  { apply: (Rmult_le_reg_r (T * T)); first nra. rewrite (_ : (p + t) / (T * T) * (T * T) = p + t); last by field; lra. rewrite (_ : (1011 / 1000) * (d / T) * (T * T) = (1011 / 1000) * (d * T)); last by field; lra. lra. }
  lra.
Qed.
Lemma scal_K d p k q : inside d -> Rabs p <= d * ((101 / 100) * T) -> 0 < q <= (101 / 100) -> Rabs (k - p / (T * T)) <= 21 * v * q * ((Rabs p + t) / (T * T) + t) ->
  Rabs (k - p / (T * T)) <= (217 / 10) * v * (d / T) /\ Rabs k <= (1011 / 1000) * (d / T).
Proof.
  move=> Hd Hp Hq H. have PT := in_pos HT. have Pd := in_pos Hd. have G := scal_G Hd (conj (Rabs_pos p) Hp).
  have dT : 0 < d / T by apply: Rdiv_lt_0_compat.
  have A : Rabs (k - p / (T * T)) <= (217 / 10) * v * (d / T).
  { apply: Rle_trans H _. apply: Rle_trans (Rmult_le_compat_l _ _ _ _ G) _; first nra. have : v * q <= v * (101 / 100) by nra. move=> X.
    have := Rmult_le_compat_r (d / T) _ _ (Rlt_le _ _ dT) X. nra. }
  split=> //. have B : Rabs (p / (T * T)) <= (101 / 100) * (d / T).
  { rewrite /Rdiv Rabs_mult (Rabs_right (/ (T * T))); last by apply: Rle_ge; left; apply: Rinv_0_lt_compat; nra.
    apply: (Rmult_le_reg_r (T * T)); first nra. rewrite (_ : Rabs p * / (T * T) * (T * T) = Rabs p); last by field; lra. rewrite (_ : (101 / 100) * (d * / T) * (T * T) = d * ((101 / 100) * T)) //. field; lra. }
  have := Rabs_triang (k - p / (T * T)) (p / (T * T)). rewrite (_ : k - p / (T * T) + p / (T * T) = k); last by ring. move=> X.
  have : v * (d / T) <= 2 / 1000000000 * (d / T) by apply: Rmult_le_compat_r; lra. lra.
Qed.
(** One factor of the Joseph form, then both. *)
Lemma scal_M di dj dc k p pc s n : inside di -> inside dj -> 0 <= dc <= (101 / 100) * T -> 0 <= k <= (1011 / 1000) * (di / T) -> 0 <= p <= di * dj -> 0 <= pc <= dc * dj -> 0 <= n <= 1000000 -> 0 <= s <= n * (b * dj) ->
  p + k * pc + t * s + t <= (203 / 100) * (di * dj).
Proof.
  move=> Hi Hj Hc Hk Hp Hpc Hn Hs. have PT := in_pos HT. have Pi := in_pos Hi. have Pj := in_pos Hj. have A := t_two Hi Hj. have B := t_one Hi.
  have C : k * pc <= (1011 / 1000) * (di / T) * ((101 / 100) * T * dj).
  { apply: Rmult_le_compat; try lra. apply: Rle_trans (proj2 Hpc) _. apply: Rmult_le_compat_r; lra. }
  rewrite (_ : (1011 / 1000) * (di / T) * ((101 / 100) * T * dj) = (102111 / 100000) * (di * dj)) in C; last by field; lra.
  have E : t * s <= / 1000000000000 * (di * dj).
  { apply: Rle_trans (Rmult_le_compat_l t _ _ _ (proj2 Hs)) _; first lra. rewrite (_ : t * (n * (b * dj)) = n * (t * b) * dj); last by ring.
    rewrite -(Rmult_assoc (/ 1000000000000)). apply: Rmult_le_compat_r; first lra. have : n * (t * b) <= 1000000 * (/ 1000000000000000000 * di) by apply: Rmult_le_compat; try lra; nra. lra. }
  nra.
Qed.
Lemma scal_MM di dj k m mc s n : inside di -> inside dj -> 0 <= k <= (1011 / 1000) * (dj / T) -> 0 <= m <= (203 / 100) * (di * dj) -> 0 <= mc <= (203 / 100) * (di * ((101 / 100) * T)) -> 0 <= n <= 1000000 -> 0 <= s <= n * ((203 / 100) * (di * b)) ->
  m + k * mc + t * s + t <= (411 / 100) * (di * dj).
Proof.
  move=> Hi Hj Hk Hm Hmc Hn Hs. have PT := in_pos HT. have Pi := in_pos Hi. have Pj := in_pos Hj. have A := t_two Hi Hj. have B := t_one Hj.
  have C : k * mc <= (1011 / 1000) * (dj / T) * ((203 / 100) * (di * ((101 / 100) * T))) by apply: Rmult_le_compat; lra.
  rewrite (_ : (1011 / 1000) * (dj / T) * ((203 / 100) * (di * ((101 / 100) * T))) = (20728533 / 10000000) * (di * dj)) in C; last by field; lra.
  have E : t * s <= / 100000000000 * (di * dj).
  { apply: Rle_trans (Rmult_le_compat_l t _ _ _ (proj2 Hs)) _; first lra. rewrite (_ : t * (n * ((203 / 100) * (di * b))) = (203 / 100) * (n * (t * b)) * di); last by ring.
    rewrite (Rmult_comm di) -(Rmult_assoc (/ 100000000000)). apply: Rmult_le_compat_r; first lra. have : n * (t * b) <= 1000000 * (/ 1000000000000000000 * dj) by apply: Rmult_le_compat; try lra; nra. lra. }
  nra.
Qed.
Lemma scal_R di dj ki kj w : inside di -> inside dj -> 0 <= ki <= (1011 / 1000) * (di / T) -> 0 <= kj <= (1011 / 1000) * (dj / T) -> 0 <= w <= T * T -> (ki * w + t) * kj + t <= (103 / 100) * (di * dj).
Proof.
  move=> Hi Hj Hki Hkj Hw. have PT := in_pos HT. have Pi := in_pos Hi. have Pj := in_pos Hj. have A := t_two Hi Hj. have B := t_two Hi HT.
  have C : ki * w + t <= (10111 / 10000) * (di * T).
  { have : ki * w <= (1011 / 1000) * (di / T) * (T * T) by apply: Rmult_le_compat; lra. rewrite (_ : (1011 / 1000) * (di / T) * (T * T) = (1011 / 1000) * (di * T)); last by field; lra. nra. }
  have C0 : 0 <= ki * w + t by nra.
  have E : (ki * w + t) * kj <= (10111 / 10000) * (di * T) * ((1011 / 1000) * (dj / T)) by apply: Rmult_le_compat; lra.
  rewrite (_ : (10111 / 10000) * (di * T) * ((1011 / 1000) * (dj / T)) = (10222221 / 10000000) * (di * dj)) in E; last by field; lra. nra.
Qed.
Lemma scal_P di dj e1 e2 us qi qj : inside di -> inside dj -> 0 <= us <= (514 / 100) * (di * dj) -> 0 <= e1 <= (217 / 10) * v * (di / T) -> 0 <= e2 <= (217 / 10) * v * (dj / T) -> qi <= e1 -> qj <= e2 -> 0 <= qi -> 0 <= qj ->
  21 * v * us + T * T * (qi * qj) <= 109 * v * (di * dj).
Proof.
  move=> Hi Hj Hu H1 H2 L1 L2 q1 q2. have PT := in_pos HT. have Pi := in_pos Hi. have Pj := in_pos Hj.
  have A : qi * qj <= (217 / 10) * v * (di / T) * ((217 / 10) * v * (dj / T)) by apply: Rmult_le_compat; lra.
  have B : T * T * (qi * qj) <= T * T * ((217 / 10) * v * (di / T) * ((217 / 10) * v * (dj / T))) by apply: Rmult_le_compat_l; nra.
  rewrite (_ : T * T * ((217 / 10) * v * (di / T) * ((217 / 10) * v * (dj / T))) = (47089 / 100) * v * (v * (di * dj))) in B; last by field; lra.
  have C : 0 <= v * (di * dj) by apply: Rmult_le_pos; nra. have D : (47089 / 100) * v * (v * (di * dj)) <= 1 * (v * (di * dj)) by apply: Rmult_le_compat_r; lra.
  have E : v * us <= v * ((514 / 100) * (di * dj)) by apply: Rmult_le_compat_l; lra. lra.
Qed.
Lemma scal_x di e1 k x z xc nu : inside di -> 0 <= k <= (1011 / 1000) * (di / T) -> 0 <= e1 <= (217 / 10) * v * (di / T) -> 0 <= x -> 0 <= z -> 0 <= xc -> 0 <= nu <= z + xc ->
  12 * v * (x + (k * (z + (xc + t)) + t)) + e1 * nu <= 34 * v * (x + di / T * (z + xc + t) + t).
Proof.
  move=> Hi Hk H1 x0 z0 c0 Hnu. have PT := in_pos HT. have Pi := in_pos Hi. have dT : 0 < di / T by apply: Rdiv_lt_0_compat.
  have A : k * (z + (xc + t)) <= (1011 / 1000) * (di / T) * (z + (xc + t)) by apply: Rmult_le_compat_r; lra.
  have B : e1 * nu <= (217 / 10) * v * (di / T) * (z + xc) by apply: Rmult_le_compat; lra.
  have C : 0 <= v * (di / T * (z + xc)) by apply: Rmult_le_pos; [lra|]; apply: Rmult_le_pos; lra.
  have C2 : 0 <= v * (di / T * t) by apply: Rmult_le_pos; [lra|]; apply: Rmult_le_pos; lra.
  have D : v * (k * (z + (xc + t))) <= v * ((1011 / 1000) * (di / T) * (z + (xc + t))) by apply: Rmult_le_compat_l; lra.
  have E : 0 <= v * x by nra. have F : 0 <= v * t by nra. nra.
Qed.
Lemma div_mul (p a c s : R) : p - a / s * c = p - a * c / s.
Proof. rewrite /Rdiv. ring. Qed.
Lemma abs_minus (x y : R) : Rabs (x - y) <= Rabs x + Rabs y.
Proof. have := Rabs_triang x (- y). by rewrite Rabs_Ropp. Qed.
Lemma state_two xf x k g z xc B : Rabs (xf - (x + k * (z - xc))) <= B -> Rabs (xf - (x + g * (z - xc))) <= B + Rabs (k - g) * Rabs (z - xc).
Proof. move=> H. have := Rabs_triang (xf - (x + k * (z - xc))) ((k - g) * (z - xc)). rewrite -Rabs_mult (_ : xf - (x + k * (z - xc)) + (k - g) * (z - xc) = xf - (x + g * (z - xc))); last ring. lra. Qed.
Lemma gain_two q g d : 0 < q <= 101 / 100 -> 0 <= g -> 0 < d -> g <= 102 / 100 * d -> 0 <= 21 * v * q * g /\ 21 * v * q * g <= 217 / 10 * v * d.
Proof.
  move=> Hq g0 d0 H. have A : 0 <= 21 * v * q by nra. split; first exact: Rmult_le_pos. have B : 21 * v * q <= 21 * v * (101 / 100) by apply: Rmult_le_compat_l; lra.
  apply: Rle_trans (Rmult_le_compat _ _ _ _ A g0 B H) _. have : 0 < v * d by nra. nra.
Qed.
End Scal.
Section Plain.
Local Open Scope R_scope.
Lemma add_two (x y d : R) : x <= 411 / 100 * d -> y <= 103 / 100 * d -> 0 <= x -> 0 <= y -> 0 <= x + y /\ x + y <= 514 / 100 * d.
Proof. lra. Qed.
Lemma split_a (x a y g f : R) : (x + a * y + g) * f = x * f + a * (y * f) + g * f.
Proof. ring. Qed.
End Plain.

Section Direct.
Variables (r : R -> R) (dot : dot_fun) (N n : nat).
Hypotheses (Hr : rnd_ok r) (Hd : dot_ok dot) (HN : Rle (INR N) 1000000) (Hn : (n <= N)%N) (H1 : (1 <= N)%N).
Variables (P : 'M[R]_n) (c : 'I_n) (w : R) (D : 'I_n -> R) (T b : R).
Let H : 'rV[R]_n := delta_mx ord0 c.
Let Rk : 'M[R]_1 := w%:M.
Hypotheses (b1 : Rle 1 b) (tb : Rle (Rmult tiny64 (Rmult (Rmult b b) b)) (Rinv 1000000000000000000)).
Hypotheses (SP : symmetric P) (PD : forall i j, Rle (Rabs (P i j)) (Rmult (D i) (D j))) (HD : forall i, inside b (D i)) (HT : inside b T).
Hypotheses (w0 : Rle (Rabs w) (Rmult T T)) (wc : Rle (Rplus (Rabs (P c c)) (Rabs w)) (Rmult (Rdiv 1005 1000) (Rmult T T))) (ET : Rplus (P c c) w = Rmult T T) (Dc : Rle (D c) (Rmult (Rdiv 101 100) T)).

Lemma delta_sum m (f : 'I_n -> R) (i : 'I_m.+1) : \sum_k Rmult (Rabs ((delta_mx i c : 'M[R]_(_, n)) i k)) (f k) = f c.
Proof.
  rewrite (bigD1 c) //= big1 ?addr0; first by rewrite mxE !eqxx /= Rabs_R1 Rmult_1_l.
  move=> k /negbTE E. by rewrite mxE E andbF /= Rabs_R0 Rmult_0_l.
Qed.
Lemma delta_sum' m (f : 'I_n -> R) (i : 'I_m.+1) : \sum_k Rmult (f k) (Rabs ((delta_mx i c : 'M[R]_(_, n)) i k)) = f c.
Proof. rewrite -(delta_sum f i). apply: eq_bigr => k _. exact: Rmult_comm. Qed.
Lemma size_at m p k (A : 'M[R]_(m, p)) (B : 'M[R]_(p, k)) i j : size_mul A B i j = Rplus (\sum_l Rmult (Rabs (A i l)) (Rabs (B l j))) tiny64.
Proof. rewrite /size_mul mxE [const_mx _ _ _]mxE. congr (_ + _). rewrite mxE. apply: eq_bigr => l _. by rewrite !mxE. Qed.
Lemma size_HP j : size_mul H P ord0 j = Rplus (Rabs (P c j)) tiny64.
Proof. by rewrite size_at (delta_sum (fun k => Rabs (P k j))). Qed.
Lemma size_XH m (X : 'M[R]_(m, n)) i : size_mul X H^T i ord0 = Rplus (Rabs (X i c)) tiny64.
Proof. rewrite size_at -(delta_sum' (fun k => Rabs (X i k)) (ord0 : 'I_1)). congr Rplus. apply: eq_bigr => k _. by rewrite [H^T _ _]mxE. Qed.
Lemma innov_direct : innov_size P H Rk ord0 ord0 = Rplus (Rplus (Rplus (Rabs (P c c)) tiny64) tiny64) (Rabs w).
Proof.
  have T0 := tiny_pos. rewrite /innov_size mxE size_XH size_HP [map_mx _ _ _ _]mxE [Rk _ _]mxE eqxx mulr1n. toR.
  rewrite (Rabs_right (Rplus _ _)) //. apply: Rle_ge. have := Rabs_pos (P c c). lra.
Qed.
Lemma S_direct : (H *m P *m H^T + Rk)%R ord0 ord0 = Rmult T T.
Proof.
  rewrite mxE [Rk _ _]mxE eqxx mulr1n -ET. congr (_ + _). rewrite -rowE -[row c P *m _]trmxK trmx_mul trmxK -rowE. by rewrite !mxE.
Qed.
Lemma PH_direct i : (P *m H^T) i ord0 = P i c.
Proof. rewrite -[P *m _]trmxK trmx_mul trmxK -rowE !mxE. by []. Qed.
Lemma T_pos : Rlt 0 T. Proof. exact: (in_pos b1 HT). Qed.
Lemma q_direct : let q := Rdiv (innov_size P H Rk ord0 ord0) (Rmult T T) in Rlt 0 q /\ Rle q (Rdiv 101 100).
Proof.
  rewrite innov_direct. have A := t_two b1 tiny_pos tb HT HT. have T0 := T_pos. have t0 := tiny_pos. have TT : Rlt 0 (Rmult T T) by apply: Rmult_lt_0_compat.
  cbv zeta. split; first by apply: Rdiv_lt_0_compat => //; have := Rabs_pos (P c c); have := Rabs_pos w; lra. apply: (Rmult_le_reg_r (Rmult T T)) => //. rewrite /Rdiv Rmult_assoc Rinv_l; last exact: Rgt_not_eq. lra.
Qed.
Lemma TT_small : Rle (Rmult T T) (Rinv tiny64).
Proof.
  have t0 := tiny_pos. have := tb2 b1 t0 tb. case: HT => _ B. have T0 := T_pos. move=> Q. apply: (Rmult_le_reg_l tiny64) => //. rewrite Rinv_r; last exact: Rgt_not_eq.
  have : Rle (Rmult tiny64 (Rmult T T)) (Rmult tiny64 (Rmult b b)). { apply: Rmult_le_compat_l; first lra. apply: Rmult_le_compat; lra. } lra.
Qed.
Lemma Pc i : Rle (Rabs (P i c)) (Rmult (D i) (Rmult (Rdiv 101 100) T)).
Proof. apply: Rle_trans (PD i c) _. apply: Rmult_le_compat_l; last exact: Dc. left. exact: (in_pos b1 (HD i)). Qed.
Lemma v_bounds : Rlt 0 (vN N) /\ Rle (vN N) (Rdiv 2 1000000000).
Proof. have [A [B _]] := vN_bounds HN. by []. Qed.

Section Gain.
Variable K : 'cV[R]_n.
Let e i := Rabs (Rminus (K i ord0) (Rdiv (P i c) (Rmult T T))).
Hypothesis EK : forall i, Rle (e i) (Rmult (Rmult (Rdiv 217 10) (vN N)) (Rdiv (D i) T)) /\ Rle (Rabs (K i ord0)) (Rmult (Rdiv 1011 1000) (Rdiv (D i) T)).
Let a i := Rabs (K i ord0).
Lemma sizeA_at i k : size_A H K i k = Rplus (Rplus (if i == k then R1 else R0) (Rmult (a i) (if k == c then R1 else R0))) tiny64.
Proof.
  rewrite /size_A mxE size1 [(1%:M : 'M[R]_n) _ _]mxE. toR. rewrite -Rplus_assoc. congr (Rplus (Rplus _ _) _); first by case: eqP.
  congr Rmult. rewrite /H mxE eqxx /=. case: eqP => _; by rewrite ?Rabs_R1 ?Rabs_R0.
Qed.
Lemma sizeA_pos i k : Rle 0 (size_A H K i k).
Proof. rewrite sizeA_at. have t0 := tiny_pos. have : Rle 0 (a i) by exact: Rabs_pos. case: (i == k); case: (k == c); lra. Qed.
Lemma pick (i : 'I_n) (f : 'I_n -> R) : \sum_k Rmult (if i == k then R1 else R0) (f k) = f i.
Proof.
  rewrite (bigD1 i) //= eqxx big1 ?addr0; first by rewrite Rmult_1_l. move=> k /negbTE E. by rewrite eq_sym E Rmult_0_l.
Qed.
Lemma scale_sum (y : R) (f : 'I_n -> R) : Rmult y (\sum_k f k) = \sum_k Rmult y (f k).
Proof. exact: mulr_sumr. Qed.
Lemma sumA i (f : 'I_n -> R) : \sum_k Rmult (Rabs (size_A H K i k)) (f k) = Rplus (Rplus (f i) (Rmult (a i) (f c))) (Rmult tiny64 (\sum_k f k)).
Proof.
  rewrite -(pick i f) -[in Rmult (a i) (f c)](pick c f) !scale_sum. transitivity (\sum_k (Rplus (Rplus (Rmult (if i == k then R1 else R0) (f k)) (Rmult (a i) (Rmult (if c == k then R1 else R0) (f k)))) (Rmult tiny64 (f k)))).
  - apply: eq_bigr => k _. rewrite Rabs_right; last by apply: Rle_ge; exact: sizeA_pos. rewrite sizeA_at (eq_sym k c). exact: split_a.
  - etransitivity; first exact: big_split. congr Rplus. exact: big_split.
Qed.
Lemma sum_D (f : 'I_n -> R) y : (forall k, Rle (f k) y) -> Rle (\sum_k f k) (Rmult (INR n) y).
Proof.
  move=> L. apply: Rle_trans (sum_le L) _. right. rewrite big_const_ord. clear. elim: n => [|m IH]; first by rewrite Rmult_0_l. rewrite iterS IH S_INR. toR. ring.
Qed.
Lemma n_le : Rle 0 (INR n) /\ Rle (INR n) 1000000.
Proof. split; first exact: pos_INR. apply: Rle_trans HN. apply: le_INR. exact/leP. Qed.
Lemma a_ok i : Rle 0 (a i) /\ Rle (a i) (Rmult (Rdiv 1011 1000) (Rdiv (D i) T)).
Proof. split; [exact: Rabs_pos|exact: (proj2 (EK i))]. Qed.
Lemma D_pos i : Rlt 0 (D i). Proof. exact: (in_pos b1 (HD i)). Qed.
Lemma M_le i j : Rle 0 (size_mul (size_A H K) P i j) /\ Rle (size_mul (size_A H K) P i j) (Rmult (Rdiv 203 100) (Rmult (D i) (D j))).
Proof.
  split; first by apply: Rle_trans (size_mul_tiny _ _ _ _); left; exact: tiny_pos.
  rewrite size_at sumA. have Dj := D_pos j.
  apply: (@scal_M tiny64 b (vN N) b1 tiny_pos tb v_bounds T HT (D i) (D j) (D c) (a i) _ _ _ (INR n)) => //.
  - split=> //. left. exact: D_pos.
  - exact: a_ok.
  - split=> //. exact: Rabs_pos.
  - split=> //. exact: Rabs_pos.
  - exact: n_le.
  - split; first by apply: sum_ge0 => k; exact: Rabs_pos. apply: sum_D => k. apply: Rle_trans (PD k j) _. apply: Rmult_le_compat_r; first lra. exact: (proj2 (HD k)).
Qed.
Lemma MM_le i j : Rle (size_mul (size_mul (size_A H K) P) (size_A H K)^T i j) (Rmult (Rdiv 411 100) (Rmult (D i) (D j))).
Proof.
  set M := size_mul (size_A H K) P. rewrite size_at.
  rewrite (eq_bigr (fun l => Rmult (Rabs (size_A H K j l)) (M i l))); last first.
  { move=> l _. rewrite [(size_A _ _)^T _ _]mxE (Rabs_right (M i l)); first exact: Rmult_comm. apply: Rle_ge. exact: (proj1 (M_le i l)). }
  rewrite sumA. have Di := D_pos i.
  apply: (@scal_MM tiny64 b (vN N) b1 tiny_pos tb v_bounds T HT (D i) (D j) (a j) _ _ _ (INR n)) => //.
  - exact: a_ok.
  - exact: M_le.
  - split; first exact: (proj1 (M_le i c)). apply: Rle_trans (proj2 (M_le i c)) _. apply: Rmult_le_compat_l; first lra. apply: Rmult_le_compat_l => //. lra.
  - exact: n_le.
  - split; first by apply: sum_ge0 => k; exact: (proj1 (M_le i k)). apply: sum_D => k. apply: Rle_trans (proj2 (M_le i k)) _. apply: Rmult_le_compat_l; first lra. apply: Rmult_le_compat_l; first lra. exact: (proj2 (HD k)).
Qed.
Lemma KRK_le i j : Rle (size_mul (size_mul K Rk) K^T i j) (Rmult (Rdiv 103 100) (Rmult (D i) (D j))).
Proof.
  rewrite !size1 [K^T _ _]mxE [Rk _ _]mxE eqxx mulr1n. have t0 := tiny_pos.
  rewrite (Rabs_right (Rplus _ _)); last first.
  { apply: Rle_ge. have := Rmult_le_pos _ _ (Rabs_pos (K i ord0)) (Rabs_pos w). lra. }
  apply: (@scal_R tiny64 b b1 tiny_pos tb T HT) => //; try exact: a_ok. split=> //. exact: Rabs_pos.
Qed.
Lemma size_ge0 m p k (A : 'M[R]_(m, p)) (B : 'M[R]_(p, k)) i j : Rle 0 (size_mul A B i j).
Proof. by apply: Rle_trans (size_mul_tiny _ _ _ _); left; exact: tiny_pos. Qed.
Lemma us_le i j : Rle 0 (update_size P H Rk K i j) /\ Rle (update_size P H Rk K i j) (Rmult (Rdiv 514 100) (Rmult (D i) (D j))).
Proof.
  rewrite /update_size mxE. have A := MM_le i j. have B := KRK_le i j. have A0 := size_ge0 (size_mul (size_A H K) P) (size_A H K)^T i j. have B0 := size_ge0 (size_mul K Rk) K^T i j. exact: (add_two A B A0 B0).
Qed.
Lemma ss_at (x : 'cV[R]_n) (z : 'cV[R]_1) i : state_size H K x z i ord0 = Rplus (Rabs (x i ord0)) (Rplus (Rmult (a i) (Rplus (Rabs (z ord0 ord0)) (Rplus (Rabs (x c ord0)) tiny64))) tiny64).
Proof.
  rewrite /state_size mxE [map_mx _ _ _ _]mxE. congr Rplus. rewrite size1. congr (Rplus (Rmult _ _) _). rewrite mxE [map_mx _ _ _ _]mxE size_at (delta_sum (fun k => Rabs (x k ord0))).
  rewrite Rabs_right //. apply: Rle_ge. have t0 := tiny_pos. have A := Rabs_pos (x c ord0). have B := Rabs_pos (z ord0 ord0). toR. lra.
Qed.
End Gain.

Lemma direct_update (x x1 : 'cV[R]_n) (z : 'M[R]_1) (P1 : 'M[R]_n) : let S := Rmult T T in
  exists (xf : 'cV[R]_n) (Pf : 'M[R]_n), filterUpdate_f r dot (inv1_f r) x P z H Rk = Ret (xf, Pf) /\
  (forall i, Rle (Rabs (Rminus (xf i ord0) (Rplus (x i ord0) (Rmult (Rdiv (P i c) S) (Rminus (z ord0 ord0) (x c ord0))))))
    (Rmult (Rmult 34 (vN N)) (Rplus (Rplus (Rabs (x i ord0)) (Rmult (Rdiv (D i) T) (Rplus (Rplus (Rabs (z ord0 ord0)) (Rabs (x c ord0))) tiny64))) tiny64))) /\
  (forall i j, Rle (Rabs (Rminus (Pf i j) (Rminus (P i j) (Rdiv (Rmult (P i c) (P j c)) S)))) (Rmult (Rmult 109 (vN N)) (Rmult (D i) (D j)))).
Proof.
  move=> S. have [q0 q1] := q_direct. set q := Rdiv _ _ in q0 q1. have [v0 v1] := v_bounds. have T0 := T_pos.
  have TT : Rlt 0 (Rmult T T) by apply: Rmult_lt_0_compat.
  have Hq : Rle (Rmult (Rmult 100 (vN N)) q) 1.
  { apply: Rle_trans (_ : Rle _ (Rmult (Rmult 100 (Rdiv 2 1000000000)) (Rdiv 101 100))) _; last lra. apply: Rmult_le_compat; lra. }
  have HS0 : Rlt 0 ((H *m P *m H^T + Rk)%R ord0 ord0) by rewrite S_direct.
  have HS1 : Rle ((H *m P *m H^T + Rk)%R ord0 ord0) (Rinv tiny64) by rewrite S_direct; exact: TT_small.
  have Hq' : Rle (Rmult (Rmult 100 (vN N)) (Rdiv (innov_size P H Rk ord0 ord0) ((H *m P *m H^T + Rk)%R ord0 ord0))) 1 by rewrite S_direct.
  have [xe [Pe [xf [Pf [K [E1 [E2 [E3 [B1 B2]]]]]]]]] := single_update Hr Hd HN Hn H1 HS0 HS1 Hq' x x1 z P1 SP.
  rewrite S_direct in B1 B2. exists xf, Pf. split=> //.
  have EK i : Rle (Rabs (Rminus (K i ord0) (Rdiv (P i c) (Rmult T T)))) (Rmult (Rmult (Rdiv 217 10) (vN N)) (Rdiv (D i) T)) /\ Rle (Rabs (K i ord0)) (Rmult (Rdiv 1011 1000) (Rdiv (D i) T)).
  { have B := B1 i. rewrite PH_direct size_XH in B. exact: (@scal_K tiny64 b (vN N) b1 tiny_pos tb (conj v0 v1) T HT (D i) (P i c) (K i ord0) q (HD i) (Pc i) (conj q0 q1) B). }
  have Ex : xe = (x + gain P H Rk *m (z - H *m x)) /\ Pe = joseph P H Rk (gain P H Rk).
  { have EU := update_ok x x1 z P P1 H Rk. rewrite (Sm_unit HS0) in EU. rewrite EU in E1.
    have A1 : DV (x + gain P H Rk *m (z - H *m x)) = DV xe by congruence. have A2 : DM (joseph P H Rk (gain P H Rk)) = DM Pe by congruence.
    split; [exact: esym (DV_inj A1)|exact: esym (DM_inj A2)]. }
  have G i : gain P H Rk i ord0 = Rdiv (P i c) S by rewrite (gain_single HS0) S_direct PH_direct.
  have J i j : Pe i j = Rminus (P i j) (Rdiv (Rmult (P i c) (P j c)) S).
  { have [K' [EK' _ EP]] := update_short E1. have EK2 : K' = gain P H Rk.
    { rewrite /gain. by rewrite -EK' -mulmxA mulmxV ?mulmx1 // (Sm_unit HS0). }
    rewrite EP EK2 mulmxBl mul1mx -mulmxA -rowE mxE [(- _ : 'M_n) _ _]mxE [(gain _ _ _ *m _) _ _]mxE big_ord1 G [(row c P) _ _]mxE.
    have -> : P c j = P j c by rewrite -{1}SP mxE. exact: div_mul. }
  split=> [i|i j].
  - have [K' [EK' [BX _]]] := update_own_gain Hr Hd HN Hn H1 E2. have KK : K' = K by congruence. subst K'.
    have B := BX i. rewrite ss_at -/(vN N) in B. rewrite [(_ + _ : 'cV_n) _ _]mxE [(K *m _) _ _]mxE big_ord1 [(_ - _ : 'M_1) _ _]mxE [(- _ : 'M_1) _ _]mxE -rowE [(row c x) _ _]mxE in B.
    move: B. have [A1 A2] := EK i. move: A1 A2. move: (K i ord0) (Rdiv (P i c) S) (xf i ord0) (x i ord0) (z ord0 ord0) (x c ord0) => k g xi xo zz xc A1 A2 B.
    apply: Rle_trans (@scal_x tiny64 b (vN N) b1 tiny_pos (conj v0 v1) T HT (D i) (Rabs (Rminus k g)) (Rabs k) (Rabs xo) (Rabs zz) (Rabs xc) (Rabs (Rminus zz xc)) (HD i) (conj (Rabs_pos _) A2) (conj (Rabs_pos _) A1) (Rabs_pos _) (Rabs_pos _) (Rabs_pos _) (conj (Rabs_pos _) (abs_minus _ _))).
    exact: state_two B.
  - have B := B2 i j. rewrite J in B. apply: Rle_trans B _. have [U0 U1] := us_le EK i j.
    have dG l : Rle 0 (Rmult (Rmult (Rmult 21 (vN N)) q) (Rplus (Rdiv (size_mul P H^T l ord0) S) tiny64)) /\
       Rle (Rmult (Rmult (Rmult 21 (vN N)) q) (Rplus (Rdiv (size_mul P H^T l ord0) S) tiny64)) (Rmult (Rmult (Rdiv 217 10) (vN N)) (Rdiv (D l) T)).
    { have t0 := tiny_pos. rewrite size_XH. have G0 := scal_G b1 tiny_pos tb HT (HD l) (conj (Rabs_pos (P l c)) (Pc l)).
      have S0 : Rlt 0 (Rinv S) by exact: Rinv_0_lt_compat. have Q : Rle 0 (Rplus (Rdiv (Rplus (Rabs (P l c)) tiny64) S) tiny64).
      { have : Rle 0 (Rmult (Rplus (Rabs (P l c)) tiny64) (Rinv S)) by apply: Rmult_le_pos; [have := Rabs_pos (P l c)|]; lra. rewrite /Rdiv. lra. }
      have dT : Rlt 0 (Rdiv (D l) T) by apply: Rdiv_lt_0_compat; [exact: D_pos|]. exact: gain_two. }
    exact: (@scal_P b (vN N) b1 (conj v0 v1) T HT (D i) (D j) _ _ _ _ _ (HD i) (HD j) (conj U0 U1) (conj (proj1 (dG i)) (proj2 (dG i))) (conj (proj1 (dG j)) (proj2 (dG j))) (Rle_refl _) (Rle_refl _) (proj1 (dG i)) (proj1 (dG j))).
Qed.
End Direct.
