(** Rounding errors of nonlinear least squares. *)
From Coq Require Import Reals Lra Psatz.
From mathcomp Require Import all_ssreflect all_algebra.
From Verif Require Import Base BaseMx ModelEigen ModelKalman ModelBls ModelFilterFloat ModelBlsFloat ModelNlsFloat SpecFloatOps SpecKalman SpecFilter SpecBls SpecFilterFloat SpecUpdateFloat SpecBlsFloat SpecNlsFloat
  ProofMx ProofKalman ProofKalman2 ProofKalman3 ProofKalman5 ProofBls ProofBls2 ProofStrapdownFloat ProofFilterFloat ProofUpdateFloat ProofLongFloat ProofBlsFloat ProofBlsFloat2 ProofGaussNewton.
From Verif Require ProofAttitudeFloat4 ProofGravityFloat.
Set Implicit Arguments.
Unset Strict Implicit.
Unset Printing Implicit Defensive.
Import GRing.Theory.
Local Open Scope ring_scope.
Local Open Scope outcome_scope.

Section Scal.
Local Open Scope R_scope.
Lemma tiny_le : tiny64 <= 1 / 1000000000000000000000000.
Proof.
  have := ProofAttitudeFloat4.eta_tiny. rewrite ProofUpdateFloat.eta_tiny /ProofGravityFloat.e20 => H.
  have [U _] := u64_bounds. apply: (Rmult_le_reg_l u64) => //. apply: Rle_trans H _. rewrite Rmult_comm. apply: Rmult_le_compat_l; lra.
Qed.
Lemma tiny_root : 0 < sqrt tiny64 <= 1 / 1000000000000 /\ sqrt tiny64 * sqrt tiny64 = tiny64.
Proof.
  have T := tiny_pos. split; last by apply: sqrt_sqrt; lra. split; first exact: sqrt_lt_R0.
  have -> : 1 / 1000000000000 = sqrt (1 / 1000000000000000000000000).
  { have -> : 1 / 1000000000000000000000000 = Rsqr (1 / 1000000000000) by rewrite /Rsqr; field. rewrite sqrt_Rsqr; lra. }
  apply: sqrt_le_1_alt. exact: tiny_le.
Qed.
(** The underflows of a vector of up to a million entries. *)
Lemma eta_many k a : 0 <= k <= 1000000 -> sqrt tiny64 <= a -> 0 <= eta64 * k <= u64 * a / 1000.
Proof.
  move=> [K0 K1] A. have [[T0 T1] T2] := tiny_root. have [U0 U1] := u64_bounds. rewrite eta_tiny -T2. move: (sqrt tiny64) T0 T1 A => t T0 T1 A.
  have P1 : 0 <= t * t by nra. have P2 : t * t * k <= t * t * 1000000 by apply: Rmult_le_compat_l.
  have P3 : 0 <= t * t * k by apply: Rmult_le_pos. have P4 : t * t * 1000000 <= a / 1000 by nra.
  split; first by rewrite Rmult_assoc; apply: Rmult_le_pos; lra.
  rewrite Rmult_assoc. apply: Rle_trans (_ : u64 * (a / 1000) <= _); last lra. apply: Rmult_le_compat_l; lra.
Qed.
Lemma lin_scal s D Q E G c t : 0 < s -> 0 <= D -> 0 <= Q -> 0 <= E -> 0 <= G -> Q * Q = c + t -> c <= Q * E -> t <= D * G -> s * D <= Q ->
  D <= E / s + G / (s * s).
Proof.
  move=> S0 D0 Q0 E0 G0 EQ C T SD.
  have i0 : 0 < / s by exact: Rinv_0_lt_compat.
  have DQ : D <= Q / s by apply: le_div => //; lra.
  have T2 : t <= Q * (G / s).
  { apply: Rle_trans T _. have -> : Q * (G / s) = Q / s * G by field; lra. exact: Rmult_le_compat_r. }
  have Z : Q <= E + G / s.
  { case: (Req_dec Q 0) => [->|NQ]; first by apply: Rplus_le_le_0_compat => //; apply: Rmult_le_pos; lra.
    apply: (Rmult_le_reg_l Q); first lra. lra. }
  apply: Rle_trans DQ _. have -> : E / s + G / (s * s) = (E + G / s) / s by field; lra.
  apply: Rmult_le_compat_r; lra.
Qed.
Lemma step_f_scal u s t0 t1 g0 g1 d dl ec Y X a b xl en F : 0 < u <= 1 / 1000000 -> 0 < s -> 0 <= Y -> 6 * u <= ec -> 0 <= X ->
  dl <= 2 * u * Y -> a <= (t0 + t1 * d + dl) / s + (g0 + g1 * d) / (s * s) + b -> s * b <= 4 * ec * (2 * Y) -> 0 <= a ->
  xl <= X -> en <= u * X -> F <= a + (u * (a + xl) + en) ->
  0 <= t0 -> 0 <= t1 -> 0 <= g0 -> 0 <= g1 -> 0 <= d ->
  F <= rate s t1 g1 * d + noise s t0 g0 ec Y X - (2 * u64 * X) + 2 * u * X.
Proof.
  move=> [U0 U1] S0 Y0 EC X0 DL A B A0 XL EN HF P1 P2 P3 P4 D0.
  have i0 : 0 < / s by exact: Rinv_0_lt_compat.
  have B' : b <= 8 * ec * Y / s. { apply: le_div => //. lra. }
  have DL' : dl / s <= 2 * u * Y / s. { apply: Rmult_le_compat_r; lra. }
  have YS : 0 <= Y / s by apply: Rmult_le_pos; lra.
  have UY : 2 * u * Y / s <= ec * (Y / s) / 3.
  { have -> : ec * (Y / s) / 3 = ec / 3 * (Y / s) by field; lra. have -> : 2 * u * Y / s = 2 * u * (Y / s) by field; lra. apply: Rmult_le_compat_r => //. lra. }
  have E8 : 8 * ec * Y / s = 8 * (ec * (Y / s)) by field; lra.
  have E9 : 9 * ec * Y / s = 9 * (ec * (Y / s)) by field; lra.
  have Ea : (t0 + t1 * d + dl) / s + (g0 + g1 * d) / (s * s) = (t0 / s + g0 / (s * s)) + (t1 / s + g1 / (s * s)) * d + dl / s by field; lra.
  rewrite /rate /noise E9. rewrite Ea in A. rewrite E8 in B'.
  have K1 : 0 <= (t0 / s + g0 / (s * s)). { have := Rinv_0_lt_compat _ (Rmult_lt_0_compat _ _ S0 S0) => j. apply: Rplus_le_le_0_compat; apply: Rmult_le_pos; lra. }
  have K2 : 0 <= (t1 / s + g1 / (s * s)) * d. { have := Rinv_0_lt_compat _ (Rmult_lt_0_compat _ _ S0 S0) => j. apply: Rmult_le_pos => //. apply: Rplus_le_le_0_compat; apply: Rmult_le_pos; lra. }
  have K3 : 0 <= ec * (Y / s) by apply: Rmult_le_pos => //; lra.
  move: (t0 / s + g0 / (s * s)) ((t1 / s + g1 / (s * s))) (dl / s) (Y / s) (ec * (Y / s)) K1 K2 K3 A B' DL' UY E8 E9 Ea => z0 z1 z2 w z3 K1 K2 K3 A B' DL' UY E8 E9 Ea.
  have UA : u * a <= a / 1000000 by nra. have UX : u * xl <= u * X by apply: Rmult_le_compat_l; lra.
  have UYw : z2 <= z3 / 3 by lra.
  lra.
Qed.

Lemma norm_scal (a b th q D L w W : R) : 0 <= a <= 1 / 100000000 -> 0 <= b -> b <= 36 / 10000000000 * (th * th) -> 0 <= th -> 0 <= L -> D = L * L ->
  Rabs (q - D) <= a * D + b -> w = sqrt q -> Rabs (W - w) <= 1 / 1000000 * w + th / 1000 ->
  W <= 1001 / 1000 * L + th / 100 /\ L <= 1001 / 1000 * W + th / 100.
Proof.
  move=> [A0 A1] B0 B1 T0 L0 -> /Rcomplements.Rabs_le_between [Q1 Q2] Ew /Rcomplements.Rabs_le_between [W1 W2].
  have w0 : 0 <= w by rewrite Ew; exact: sqrt_pos.
  have w2 : (q <= w * w) /\ (w * w <= q \/ w = 0).
  { rewrite Ew. case: (Rle_lt_dec 0 q) => K; first by rewrite sqrt_sqrt //; lra. rewrite sqrt_neg_0; last lra. lra. }
  have aD : a * (L * L) <= 1 / 100000000 * (L * L) by apply: Rmult_le_compat_r => //; nra.
  have up : w <= (1 + 1 / 10000) * L + 6 / 100000 * th.
  { case: (proj2 w2) => [K|->]; last lra. apply: sqrt_of_sq => //; [lra|]. have := Rmult_le_pos _ _ L0 T0. nra. }
  have lo : L <= (1 + 1 / 10000) * w + 7 / 100000 * th.
  { apply: sqrt_of_sq => //; [lra|]. have := Rmult_le_pos _ _ w0 T0. have := proj1 w2. nra. }
  lra.
Qed.
Lemma one_million : 1 <= 1000000.
Proof. lra. Qed.
Lemma eta3 k : k <= 1000000 -> 3 * k * (u64 * tiny64) <= 36 / 10000000000 * tiny64.
Proof.
  move=> K. have [U0 U1] := u64_bounds. have T := tiny_pos. have -> : 3 * k * (u64 * tiny64) = 3 * (k * u64) * tiny64 by ring.
  apply: Rmult_le_compat_r; first lra. have := Rmult_le_compat_r _ _ _ (Rlt_le _ _ U0) K. lra.
Qed.
Lemma resid_scal (th W L K e : R) : 0 <= th -> 0 <= L -> K <= L + e -> L <= K + e -> e <= L / 1000000 + th / 1000 ->
  W <= 1001 / 1000 * K + th / 100 -> K <= 1001 / 1000 * W + th / 100 ->
  W <= 101 / 100 * L + th /\ L <= 101 / 100 * W + th.
Proof. lra. Qed.
Lemma loop_scal k t a d : 0 <= k < 1 -> d <= a + t / (1 - k) -> k * d + t <= k * a + t / (1 - k) /\ (1 + k) * d + t <= (1 + k) * a + 2 * (t / (1 - k)).
Proof.
  move=> [K0 K1] H. have E : t = (1 - k) * (t / (1 - k)) by field; lra. move: (t / (1 - k)) E H => T -> H. nra.
Qed.
Lemma end_scal k t d E F : 0 <= k < 1 -> d <= E + (k * d + t) -> F <= k * d + t -> F <= (k * E + t) / (1 - k).
Proof.
  move=> [K0 K1] H1 H2. apply: le_div; first lra. have : k * ((1 - k) * d) <= k * (E + t) by apply: Rmult_le_compat_l; lra.
  have : F * (1 - k) <= (k * d + t) * (1 - k) by apply: Rmult_le_compat_r; lra. lra.
Qed.

End Scal.

(** ** Lengths *)
Lemma len_le n (a b : 'cV[R]_n) : (forall i, Rle (Rabs (a i 0)) (b i 0)) -> Rle (len a) (len b).
Proof.
  move=> H. apply: sqrt_le_1_alt. apply: sum_le => i. toR. have -> : Rmult (a i 0) (a i 0) = Rmult (Rabs (a i 0)) (Rabs (a i 0)).
  { rewrite -Rabs_mult Rabs_right //. exact: Rle_ge (Rle_0_sqr _). }
  apply: Rmult_le_compat; try exact: Rabs_pos; exact: H.
Qed.
Lemma len_scale n (k : R) (v : 'cV[R]_n) : Rle 0 k -> len (k *: v) = Rmult k (len v).
Proof.
  move=> K. rewrite /len. have -> : sq (k *: v) = Rmult (Rmult k k) (sq v).
  { rewrite /sq sum_scale. apply: eq_bigr => i _. rewrite !mxE. exact: mul_sq. }
  rewrite sqrt_mult_alt; last exact: Rle_0_sqr. by rewrite sqrt_square.
Qed.
Lemma len_abs n (v : 'cV[R]_n) : len (map_mx Rabs v) = len v.
Proof. rewrite /len /sq. congr sqrt. apply: eq_bigr => i _. rewrite mxE. toR. rewrite -Rabs_mult Rabs_right //. exact: Rle_ge (Rle_0_sqr _). Qed.
Lemma len_const n (k : R) : Rle 0 k -> Rle (len (const_mx k : 'cV[R]_n)) (Rmult k (INR n)).
Proof.
  move=> K. apply: sqrt_of_sq; [exact: len_ge0|by apply: Rmult_le_pos => //; exact: pos_INR|]. rewrite len_sq /sq.
  have -> : \sum_(i < n) (const_mx k : 'cV[R]_n) i 0 * (const_mx k : 'cV[R]_n) i 0 = Rmult (INR n) (Rmult k k).
  { rewrite -sum_const. apply: eq_bigr => i _. by rewrite mxE. }
  have -> : Rmult (Rmult k (INR n)) (Rmult k (INR n)) = Rmult (Rmult (INR n) (INR n)) (Rmult k k) by ring.
  apply: Rmult_le_compat_r; first exact: Rle_0_sqr.
  case: n => [|n]; first by rewrite /=; lra. rewrite S_INR. have := pos_INR n. move: (INR n) => a A. nra.
Qed.
Lemma round_len r n (v : 'cV[R]_n) : rnd_ok r -> Rle (len (map_mx r v - v)) (Rplus (Rmult u64 (len v)) (Rmult eta64 (INR n))).
Proof.
  move=> Hr. have [U _] := u64_bounds. have E : Rle 0 eta64 by rewrite eta_tiny; apply: Rmult_le_pos; [lra|exact: Rlt_le tiny_pos].
  apply: (Rle_trans _ (len (u64 *: map_mx Rabs v + const_mx eta64))).
  - apply: len_le => i. rewrite !mxE. exact: Hr.
  - apply: Rle_trans (len_add _ _) _. rewrite len_scale ?len_abs; last lra. apply: Rplus_le_compat_l. exact: len_const.
Qed.
Lemma qf_normal m n (H : 'M[R]_(m, n)) (v : 'cV[R]_n) : qf (H^T *m H) v = sq (H *m v).
Proof. by rewrite -sq_qf /qf mulmx1 trmx_mul !mulmxA. Qed.

(** ** One step *)
Lemma exact_part m n (H : 'M[R]_(m, n)) (y hs yx dl : 'cV[R]_m) (x xs c : 'cV[R]_n) s E G : Rlt 0 s -> Rle 0 E -> Rle 0 G ->
  (forall v : 'cV[R]_n, Rle (Rmult s (len v)) (len (H *m v))) ->
  H^T *m H *m c = H^T *m (y - yx + dl) ->
  Rle (len (hs - (yx + H *m (xs - x)) + dl)) E -> Rle (len (H^T *m (y - hs))) G ->
  Rle (len (x + c - xs)) (Rplus (Rdiv E s) (Rdiv G (Rmult s s))).
Proof.
  move=> S0 E0 G0 HS N HE HG. set D := x + c - xs. set e := hs - (yx + H *m (xs - x)) + dl in HE.
  have F : H^T *m H *m D = H^T *m e + H^T *m (y - hs).
  { have -> : D = c - (xs - x) by rewrite /D; mx_abel. rewrite mulmxBr N -!mulmxA -mulmxBr -mulmxDr. congr (_ *m _). rewrite /e. mx_abel. }
  apply: (@lin_scal s (len D) (len (H *m D)) E G (((H *m D)^T *m e) 0 0) ((D^T *m (H^T *m (y - hs))) 0 0)) => //; try exact: len_ge0.
  - rewrite len_sq -dot_sq. have -> : (H *m D)^T *m (H *m D) = D^T *m (H^T *m H *m D) by rewrite trmx_mul !mulmxA.
    by rewrite F mulmxDr mxE trmx_mul !mulmxA.
  - apply: Rle_trans (dot_len _ _) _. apply: Rmult_le_compat_l HE. exact: len_ge0.
  - apply: Rle_trans (dot_len _ _) _. apply: Rmult_le_compat_l HG. exact: len_ge0.
Qed.

(** ** The loop, for any step that takes an error d to k d + t at most *)
Section Loop.
Variables (r : R -> R) (dot : dot_fun) (N m n : nat).
Hypothesis Hr : rnd_ok r.
Hypothesis Hd : dot_ok dot.
Hypothesis HN : Rle (INR N) 1000000.
Hypothesis Hn : (n <= N)%N.
Hypothesis n0 : (0 < n)%N.
Let v := vN N.
Lemma n_range1 : Rle 1 (INR n) /\ Rle (INR n) 1000000.
Proof.
  have A : Rle (INR n) (INR N) by apply: le_INR; apply/leP.
  have C : Rle (INR 1) (INR n) by apply: le_INR; apply/leP. rewrite /= in C. lra.
Qed.
Lemma norm_f_ok (a b : 'cV[R]_n) : let W := norm_f r dot (map_mx r (a - b)) in
  Rle W (Rplus (Rmult (Rdiv 101 100) (len (a - b))) (sqrt tiny64)) /\ Rle (len (a - b)) (Rplus (Rmult (Rdiv 101 100) W) (sqrt tiny64)).
Proof.
  move=> W. have [N1 N2] := n_range1. have [U0 U1] := u64_bounds. have [[R0 R1] R2] := tiny_root. have [V0 [V1 V2]] := vN_bounds HN. rewrite -/v in V0 V1 V2.
  have [E0 E1] := eta_many (conj (Rle_trans _ _ _ Rle_0_1 N1) N2) (Rle_refl (sqrt tiny64)).
  set z := map_mx r (a - b) in W *. have Z := round_len (a - b) Hr. rewrite -/z in Z.
  have Z1 : Rle (len z) (Rplus (len (a - b)) (len (z - (a - b)))).
  { have {1}-> : z = (z - (a - b)) + (a - b) by rewrite subrK. rewrite Rplus_comm. exact: len_add. }
  have Z2 : Rle (len (a - b)) (Rplus (len z) (len (z - (a - b)))).
  { rewrite (len_sym z). have {1}-> : a - b = ((a - b) - z) + z by rewrite subrK. rewrite Rplus_comm. exact: len_add. }
  have Z0 := len_ge0 (a - b).
  have UZ := Rmult_le_compat_r _ _ _ Z0 U1. have UT := Rmult_le_compat_r _ _ _ (Rlt_le _ _ R0) U1.
  have Q : Rle W (Rplus (Rmult (Rdiv 1001 1000) (len z)) (Rdiv (sqrt tiny64) 100)) /\ Rle (len z) (Rplus (Rmult (Rdiv 1001 1000) W) (Rdiv (sqrt tiny64) 100)).
  { apply: (@norm_scal (Rmult (Rdiv 101 100) v) (Rmult (3 * INR n) eta64) (sqrt tiny64) (@dot n (fun i => z i ord0) (fun i => z i ord0)) (sq z) (len z) _ W _ _ _ _ _ _ _ (erefl _)).
    - split; lra.
    - lra.
    - rewrite R2 eta_tiny. exact: eta3.
    - lra.
    - exact: len_ge0.
    - by rewrite len_sq.
    - have := Hd (fun i => z i ord0) (fun i => z i ord0) N2.
      have -> : \sum_i Rabs (z i ord0 * z i ord0) = sq z.
      { apply: eq_bigr => i _. toR. rewrite Rabs_right //. exact: Rle_ge (Rle_0_sqr _). }
      move=> K. apply: Rle_trans K _. apply: Rplus_le_compat_r. apply: Rmult_le_compat_r; first exact: sq_ge0.
      apply: Rmult_le_compat_l; first lra. rewrite /v /vN. apply: Rmult_le_compat_r; first lra. apply: Rplus_le_compat_r. apply: le_INR. by apply/leP.
    - have := Hr (sqrt (@dot n (fun i => z i ord0) (fun i => z i ord0))). rewrite -/(norm_f r dot z) -/W. have := sqrt_pos (@dot n (fun i => z i ord0) (fun i => z i ord0)).
      move: (sqrt (dot _ _)) => w w0. rewrite (Rabs_pos_eq w) // => K. apply: Rle_trans K _. have := Rmult_le_compat_r _ _ _ w0 U1.
      have [_ E2] := eta_many (conj Rle_0_1 one_million) (Rle_refl (sqrt tiny64)). lra. }
  apply: (@resid_scal (sqrt tiny64) W (len (a - b)) (len z) (len (z - (a - b)))) => //; lra.
Qed.

Variables (step : 'cV[R]_n -> outcome 'cV[R]_n) (HF : 'cV[R]_n -> 'M[R]_(m, n)) (xs : 'cV[R]_n) (k t rho eps : R).
Hypothesis K0 : Rle 0 k.
Hypothesis k1 : Rlt k 1.
Hypothesis t_ge0 : Rle 0 t.
Hypothesis ball : Rle (Rplus (Rmult k rho) t) rho.
Hypothesis step_ok : forall x : 'cV[R]_n, Rle (len (x - xs)) rho -> exists x', step x = Ret x' /\ Rle (len (x' - xs)) (Rplus (Rmult k (len (x - xs))) t).
Lemma in_ball d : Rle d rho -> Rle (Rplus (Rmult k d) t) rho.
Proof. move=> D. apply: Rle_trans ball. apply: Rplus_le_compat_r. exact: Rmult_le_compat_l D. Qed.
Lemma nls_f_stop fuel (H : 'M[R]_(m, n)) (x x1 res : 'cV[R]_n) : Rle (norm_f r dot res) eps ->
  nls_loop_f r dot HF eps step fuel H x x1 res = Ret (H, x, x1).
Proof. move=> E. case: fuel => [|f] /=; case: Rlt_dec => // K; lra. Qed.
Let ends (o : outcome ('M[R]_(m, n) * 'cV[R]_n * 'cV[R]_n)) : Prop := exists x' x'', o = Ret (HF x', x'', x'') /\ step x' = Ret x'' /\ Rle (len (x' - xs)) rho /\ Rle (norm_f r dot (map_mx r (x'' - x'))) eps.
Lemma nls_f_loop j : forall fuel (H : 'M[R]_(m, n)) (x x1 res : 'cV[R]_n) a, (j < fuel)%N -> Rlt eps (norm_f r dot res) ->
  Rle (len (x - xs)) rho -> Rle (len (x - xs)) (Rplus a (Rdiv t (Rminus 1 k))) ->
  Rle (Rplus (Rmult (Rdiv 101 100) (Rplus (Rmult (Rmult (Rplus 1 k) (pow k j)) a) (Rmult 2 (Rdiv t (Rminus 1 k))))) (sqrt tiny64)) eps ->
  ends (nls_loop_f r dot HF eps step fuel H x x1 res).
Proof.
  elim: j => [|j IH] fuel H x x1 res a; case: fuel => // f Hf E B A C; rewrite /=; case: Rlt_dec => [?|//].
  - have [x' [Ex Hx]] := step_ok B. rewrite Ex /=.
    have [_ L2] := loop_scal (conj K0 k1) A. have [W1 _] := norm_f_ok x' x.
    have D : Rle (len (x' - x)) (Rplus (len (x' - xs)) (len (x - xs))).
    { rewrite (len_sym x xs). have -> : x' - x = (x' - xs) + (xs - x) by mx_abel. exact: len_add. }
    have W : Rle (norm_f r dot (map_mx r (x' - x))) eps by move: C; rewrite /= Rmult_1_r; lra.
    rewrite nls_f_stop //. by exists x, x'.
  - have [x' [Ex Hx]] := step_ok B. rewrite Ex /=. have [L1' _] := loop_scal (conj K0 k1) A.
    case: (Rlt_dec eps (norm_f r dot (map_mx r (x' - x)))) => [F|/Rnot_lt_le F].
    + apply: (IH _ _ _ _ _ (Rmult k a)) => //.
      * exact: Rle_trans Hx (in_ball B).
      * lra.
      * move: C. rewrite /=. lra.
    + rewrite nls_f_stop //. by exists x, x'.
Qed.
Lemma loop_ends j fuel (H : 'M[R]_(m, n)) (x x1 : 'cV[R]_n) : (j < fuel)%N -> Rlt eps (norm_f r dot (map_mx r (x1 - x))) ->
  Rle (len (x - xs)) rho ->
  Rle (Rplus (Rmult (Rdiv 101 100) (Rplus (Rmult (Rmult (Rplus 1 k) (pow k j)) (len (x - xs))) (Rmult 2 (Rdiv t (Rminus 1 k))))) (sqrt tiny64)) eps ->
  exists H' x', nls_loop_f r dot HF eps step fuel H x x1 (map_mx r (x1 - x)) = Ret (H', x', x') /\
  Rle (len (x' - xs)) (Rdiv (Rplus (Rmult k (Rplus (Rmult (Rdiv 101 100) eps) (sqrt tiny64))) t) (Rminus 1 k)).
Proof.
  move=> Hj E B C.
  have t_pos : Rle 0 (Rdiv t (Rminus 1 k)) by apply: Rmult_le_pos t_ge0 _; apply: Rlt_le; apply: Rinv_0_lt_compat; lra.
  have A : Rle (len (x - xs)) (Rplus (len (x - xs)) (Rdiv t (Rminus 1 k))) by lra.
  have [x' [x'' [-> [Es [B' W]]]]] := @nls_f_loop j fuel H x x1 _ (len (x - xs)) Hj E B A C.
  exists (HF x'), x''. split; first reflexivity.
  have [z [Ez Hz]] := step_ok B'. have Ezx : z = x'' by move: Ez; rewrite Es => -[].
  rewrite Ezx in Hz.
  have [_ W2] := norm_f_ok x'' x'.
  apply: (@end_scal k t (len (x' - xs))) => //.
  have D : Rle (len (x' - xs)) (Rplus (len (x'' - x')) (len (x'' - xs))).
  { rewrite (len_sym x''). have -> : x' - xs = (x' - x'') + (x'' - xs) by mx_abel. exact: len_add. }
  lra.
Qed.
End Loop.

Section Main.
Variables (r : R -> R) (dot : dot_fun) (N m n : nat) (solve : 'M[R]_n -> 'cV[R]_n -> outcome 'cV[R]_n).
Hypothesis Hr : rnd_ok r.
Hypothesis Hd : dot_ok dot.
Hypothesis HN : Rle (INR N) 1000000.
Hypothesis Hn : (n <= N)%N.
Hypothesis Hm : (m <= N)%N.
Hypothesis n0 : (0 < n)%N.
Let v := vN N.

(** The solution of the computed normal equations. *)
Lemma solve_part (H : 'M[R]_(m, n)) (d : 'cV[R]_m) (c : 'cV[R]_n) l sv Y : Rlt 0 l -> Rle l 1 -> Rle 0 sv ->
  apart l (H^T *m H) -> (forall i, Rle tiny64 ((H^T *m H) i i)) -> Rle (len d) Y -> Rle (sqrt tiny64) Y ->
  solved sv (normal_f dot H) (rhs_f dot H d) c ->
  let e := Rplus (Rmult 2 sv) (Rmult 6 v) in Rle (Rmult (Rmult 2 (INR n)) e) l ->
  exists c0 : 'cV[R]_n, H^T *m H *m c0 = H^T *m d /\ Rle (len (H *m (c - c0))) (Rmult (Rmult 4 (Rmult e (Rdiv (INR n) l))) Y).
Proof.
  move=> L0 L1 S0 HA T HY TY Hs e HE. have [V0 [V1 V2]] := vN_bounds HN. rewrite -/v in V0 V1 V2.
  have [c0 Ec] := normal_solvable H d (psd1 m). exists c0. split; first by move: Ec; rewrite !mulmx1.
  rewrite /len -qf_normal. have HA' : apart l (H^T *m 1%:M *m H) by rewrite normal1.
  have := @ls_core_size _ _ 1%:M H d (normal_f dot H) (rhs_f dot H d) c0 c sv (Rmult 6 v) l Y (psd1 m) L0 L1 HA' S0.
  rewrite !mulmx1 => Q. apply: Q => //.
  - lra.
  - move=> i j. have := proj1 (near_normal Hd HN Hm H i j). have := size_normal i j T. have : Rle 0 (Rmult 3 v) by lra.
    move: (size_mul _ _ i j) (Rmult (sqrt _) _) => a b. rewrite -/v => P A B. apply: Rle_trans B _. have := Rmult_le_compat_l _ _ _ P A. lra.
  - by rewrite sq_qf.
  - move=> i. have := proj1 (near_rhs Hd HN Hm H d i 0). rewrite -/v.
    have -> : size_mul H^T d i 0 = Rplus (\sum_k Rmult (Rabs (col i H k 0)) (Rabs (d k 0))) tiny64.
    { rewrite /size_mul mxE [const_mx _ _ _]mxE. congr (Rplus _ _). rewrite mxE. apply: eq_bigr => k _. by rewrite !mxE. }
    have AD := abs_dot (col i H) d. rewrite -col_sq -/(len d) in AD.
    have [[R0 R1] R2] := tiny_root. have SA : Rle (sqrt tiny64) (sqrt ((H^T *m H) i i)) by apply: sqrt_le_1_alt; exact: T.
    have M1 : Rle tiny64 (Rmult (sqrt ((H^T *m H) i i)) Y) by rewrite -R2; apply: Rmult_le_compat; lra.
    have M2 : Rle (Rmult (sqrt ((H^T *m H) i i)) (len d)) (Rmult (sqrt ((H^T *m H) i i)) Y) by apply: Rmult_le_compat_l HY; exact: sqrt_pos.
    move: M1 M2 AD. move: (sqrt ((H^T *m H) i i)) (len d) (\sum_k _) => a b t M1 M2 AD K. apply: Rle_trans K _.
    have K2 : Rle (Rplus t tiny64) (Rmult 2 (Rmult a Y)) by lra.
    have := Rmult_le_compat_l (Rmult 3 v) _ _ ltac:(lra) K2. lra.
  - by move: Ec; rewrite !mulmx1.
Qed.

Variables (hF : 'cV[R]_n -> 'cV[R]_m) (HF : 'cV[R]_n -> 'M[R]_(m, n)) (y hs : 'cV[R]_m) (xs : 'cV[R]_n) (s l t0 t1 g0 g1 Y X rho sv : R).
Hypothesis T : tame_f hF HF y hs xs s l t0 t1 g0 g1 Y rho.
Hypothesis HS : solves_in r dot solve hF HF y xs rho sv.
Hypothesis s0 : Rlt 0 s.
Hypothesis L0 : Rlt 0 l.
Hypothesis L1 : Rle l 1.
Hypothesis sv0 : Rle 0 sv.
Hypothesis P0 : Rle 0 t0 /\ Rle 0 t1 /\ Rle 0 g0 /\ Rle 0 g1.
Hypothesis HY : Rle (sqrt tiny64) Y.
Hypothesis HX : Rle (sqrt tiny64) X.
Hypothesis Xs : Rle (len xs) X.
Let e := Rplus (Rmult 2 sv) (Rmult 6 v).
Hypothesis He : Rle (Rmult (Rmult 2 (INR n)) e) l.
Let k := rate s t1 g1.
Let t := noise s t0 g0 (Rmult e (Rdiv (INR n) l)) Y X.

Lemma n_range : Rle 1 (INR n) /\ Rle (INR n) 1000000 /\ Rle 0 (INR m) /\ Rle (INR m) 1000000.
Proof.
  have A : Rle (INR n) (INR N) by apply: le_INR; apply/leP. have B : Rle (INR m) (INR N) by apply: le_INR; apply/leP.
  have C : Rle (INR 1) (INR n) by apply: le_INR; apply/leP. have := pos_INR m. rewrite /= in C. lra.
Qed.
Lemma ec_big : Rle (Rmult 6 u64) (Rmult e (Rdiv (INR n) l)).
Proof.
  have [V0 [V1 V2]] := vN_bounds HN. rewrite -/v in V0 V1 V2. have [N1 _] := n_range.
  have C : Rle 1 (Rdiv (INR n) l) by apply: le_div => //; lra.
  have E : Rle (Rmult 6 u64) e by rewrite /e; lra. have [U _] := u64_bounds.
  have K : Rle 0 (Rmult 6 u64) by lra. have := Rmult_le_compat _ _ _ _ K Rle_0_1 E C. lra.
Qed.
Lemma step_f_ok (x : 'cV[R]_n) : Rle (len (x - xs)) rho ->
  exists x', nls_step_f r dot solve hF HF y x = Ret x' /\ Rle (len (x' - xs)) (Rplus (Rmult k (len (x - xs))) t).
Proof.
  move=> B. have [[HS1 [HA HT]] HE HG HYx] := T B. have [c [Ec Hc]] := HS B. rewrite /nls_step_f Ec /=. eexists; split; first reflexivity.
  have [N1 [N2 [M1 M2]]] := n_range. have [U0 U1] := u64_bounds. have [[R0 R1] R2] := tiny_root. have [p1 [p2 [p3 p4]]] := P0.
  set d := map_mx r (y - hF x) in Ec Hc. set dl := d - (y - hF x).
  have Dl : Rle (len dl) (Rmult (Rmult 2 u64) Y).
  { apply: Rle_trans (round_len _ Hr) _. have [_ K] := eta_many (conj M1 M2) HY. have := Rmult_le_compat_l _ _ _ (Rlt_le _ _ U0) HYx.
    have := Rmult_le_compat_l u64 _ _ ltac:(lra) (Rle_trans _ _ _ (Rlt_le _ _ R0) HY). lra. }
  have Dd : Rle (len d) (Rmult 2 Y).
  { have -> : d = dl + (y - hF x) by rewrite /dl subrK. apply: Rle_trans (len_add _ _) _.
    have : Rle (Rmult (Rmult 2 u64) Y) Y by have := Rmult_le_compat_r Y (Rmult 2 u64) 1 ltac:(lra) ltac:(lra); lra. lra. }
  have [c0 [Ec0 Hc0]] := solve_part L0 L1 sv0 HA HT Dd ltac:(lra) Hc He.
  have E1 : (HF x)^T *m HF x *m c0 = (HF x)^T *m (y - hF x + dl) by rewrite Ec0 /dl addrC subrK.
  have E2 : Rle (len (hs - (hF x + HF x *m (xs - x)) + dl)) (Rplus (Rplus t0 (Rmult t1 (len (x - xs)))) (len dl)).
  { apply: Rle_trans (len_add _ _) _. lra. }
  have d0 := len_ge0 (x - xs). have q1 := Rmult_le_pos _ _ p2 d0. have q2 := Rmult_le_pos _ _ p4 d0. have dl0 := len_ge0 dl.
  have E0 : Rle 0 (Rplus (Rplus t0 (Rmult t1 (len (x - xs)))) (len dl)) by lra.
  have G0 : Rle 0 (Rplus g0 (Rmult g1 (len (x - xs)))) by lra.
  have A1 := exact_part s0 E0 G0 HS1 E1 E2 HG.
  have A2 : Rle (len (x + c - xs)) (Rplus (len (x + c0 - xs)) (len (c - c0))).
  { have -> : x + c - xs = (x + c0 - xs) + (c - c0) by mx_abel. exact: len_add. }
  have A3 : Rle (len (x + c)) (Rplus (len (x + c - xs)) (len xs)).
  { have {1}-> : x + c = (x + c - xs) + xs by mx_abel. exact: len_add. }
  have A4 : Rle (len (map_mx r (x + c) - xs)) (Rplus (len (x + c - xs)) (Rplus (Rmult u64 (len (x + c))) (Rmult eta64 (INR n)))).
  { have -> : map_mx r (x + c) - xs = (x + c - xs) + (map_mx r (x + c) - (x + c)) by mx_abel.
    apply: Rle_trans (len_add _ _) _. apply: Rplus_le_compat_l. exact: round_len. }
  have [_ EX] := eta_many (conj (Rle_trans _ _ _ Rle_0_1 N1) N2) HX.
  have X0 : Rle 0 X by lra.
  have UX := Rmult_le_pos _ _ (Rlt_le _ _ U0) X0.
  have R : Rle (len (map_mx r (x + c) - xs)) (Rplus (Rminus (Rplus (Rmult k (len (x - xs))) t) (Rmult (Rmult 2 u64) X)) (Rmult (Rmult 2 u64) X)); last by lra.
  apply: (@step_f_scal u64 s t0 t1 g0 g1 (len (x - xs)) (len dl) _ Y X (len (x + c - xs)) (len (c - c0)) (len xs) (Rmult eta64 (INR n))) => //; try lra.
  - exact: ec_big.
  - exact: Rle_trans (HS1 _) Hc0.
  - exact: len_ge0.
  - apply: Rle_trans A4 _. have := Rmult_le_compat_l _ _ _ (Rlt_le _ _ U0) A3. lra.
Qed.
Hypothesis k1 : Rlt k 1.
Hypothesis ball : Rle (Rplus (Rmult k rho) t) rho.
Variable eps : R.
Lemma k_pos : Rle 0 k.
Proof.
  have [p1 [p2 [p3 p4]]] := P0. rewrite /k /rate. apply: Rmult_le_pos; first lra. have i1 := Rinv_0_lt_compat _ s0.
  have i2 := Rinv_0_lt_compat _ (Rmult_lt_0_compat _ _ s0 s0). rewrite /Rdiv. apply: Rplus_le_le_0_compat; apply: Rmult_le_pos; lra.
Qed.
Lemma t_pos : Rle 0 t.
Proof.
  have [p1 [p2 [p3 p4]]] := P0. have [U0 _] := u64_bounds. have [[R0 _] _] := tiny_root.
  have i1 := Rinv_0_lt_compat _ s0. have i2 := Rinv_0_lt_compat _ (Rmult_lt_0_compat _ _ s0 s0). rewrite /t /noise /Rdiv.
  have q1 : Rle 0 (Rmult t0 (/ s)) by apply: Rmult_le_pos; lra. have q2 : Rle 0 (Rmult g0 (/ (Rmult s s))) by apply: Rmult_le_pos; lra.
  have q3 : Rle 0 (Rmult (Rmult (Rmult 9 (Rmult e (Rdiv (INR n) l))) Y) (/ s)).
  { apply: Rmult_le_pos; last lra. apply: Rmult_le_pos; last lra. have := ec_big. lra. }
  have q4 : Rle 0 (Rmult (Rmult 2 u64) X) by apply: Rmult_le_pos; lra. rewrite /Rdiv in q3. lra.
Qed.
Lemma nls_f_converges j fuel (H : 'M[R]_(m, n)) (x x1 : 'cV[R]_n) : (j < fuel)%N -> Rlt eps (norm_f r dot (map_mx r (x1 - x))) ->
  Rle (len (x - xs)) rho ->
  Rle (Rplus (Rmult (Rdiv 101 100) (Rplus (Rmult (Rmult (Rplus 1 k) (pow k j)) (len (x - xs))) (Rmult 2 (Rdiv t (Rminus 1 k))))) (sqrt tiny64)) eps ->
  exists H' x' J', unweighted_nls_f r dot solve hF HF y eps fuel H x x1 = Ret (H', x', x', J') /\
  Rle (len (x' - xs)) (Rdiv (Rplus (Rmult k (Rplus (Rmult (Rdiv 101 100) eps) (sqrt tiny64))) t) (Rminus 1 k)).
Proof.
  move=> Hj E B C.
  have [H' [x' [EL EB]]] := @loop_ends r dot N m n Hr Hd HN Hn n0 (nls_step_f r dot solve hF HF y) HF xs k t rho eps k_pos k1 t_pos ball step_f_ok j fuel H x x1 Hj E B C.
  exists H', x'. rewrite /unweighted_nls_f EL /=. by eexists.
Qed.
End Main.
