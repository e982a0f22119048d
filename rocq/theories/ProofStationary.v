(** What nonlinear least squares returns in rounded arithmetic: the last
    linearisation, and a small gradient. *)
From Coq Require Import Reals Lra Psatz.
From mathcomp Require Import all_ssreflect all_fingroup all_algebra.
From Verif Require Import Base BaseMx ModelEigen ModelKalman ModelBls ModelDate ModelFilterFloat ModelBlsFloat ModelNlsFloat ModelLdltFloat ModelLdltMx SpecFloatOps SpecKalman SpecFilter SpecBls SpecFilterFloat SpecUpdateFloat SpecBlsFloat SpecLdltFloat SpecNlsFloat SpecWnlsFloat SpecStationary
  ProofMx ProofKalman ProofKalman2 ProofKalman3 ProofKalman5 ProofBls ProofBls2 ProofStrapdownFloat ProofFilterFloat ProofUpdateFloat ProofDisturb2 ProofLopsided ProofLongFloat ProofLongFloat2 ProofBlsFloat ProofBlsFloat2 ProofBlsFloat3 ProofBlsFloat4 ProofLdlt7 ProofLdlt8 ProofGaussNewton ProofNlsFloat ProofNlsFloat2 ProofNlsCase ProofWnlsFloat ProofWnlsCase.
Set Implicit Arguments.
Unset Strict Implicit.
Unset Printing Implicit Defensive.
Import GRing.Theory.
Local Open Scope ring_scope.
Local Open Scope outcome_scope.

(** ** The loop: where a return comes from *)
Lemma loop_return (r : R -> R) (dot : dot_fun) (m n : nat) (HF : 'cV[R]_n -> 'M[R]_(m, n)) eps step : forall fuel (H : 'M[R]_(m, n)) (x x1 res : 'cV[R]_n) H' x' x1',
  Rlt eps (norm_f r dot res) -> nls_loop_f r dot HF eps step fuel H x x1 res = Ret (H', x', x1') ->
  exists xp, [/\ H' = HF xp, step xp = Ret x', x1' = x' & Rle (norm_f r dot (map_mx r (x' - xp))) eps].
Proof.
  elim=> [|f IH] H x x1 res H' x' x1' E /=; case: Rlt_dec => // K.
  case Es: (step x) => [x2| | | |] //=. case: (Rlt_dec eps (norm_f r dot (map_mx r (x2 - x)))) => [F|F]; first exact: IH.
  have -> : nls_loop_f r dot HF eps step f (HF x) x2 x2 (map_mx r (x2 - x)) = Ret (HF x, x2, x2) by case: f {IH} => [|f] /=; case: Rlt_dec.
  move=> [<- <- <-]. exists x. split=> //. exact: Rnot_lt_le.
Qed.

(** ** The right-hand side of a system with a short solution *)
Section Scal.
Local Open Scope R_scope.
Lemma near_entry (m a w h : R) : Rabs m <= h -> Rabs (a - m) <= w * h -> Rabs a <= (1 + w) * h.
Proof. move=> A B. have := Rabs_triang (a - m) m. have -> : a - m + m = a by ring. lra. Qed.
Lemma corr_scal (u x d eta : R) : 0 < u <= 1 / 1000000 -> 0 <= x -> 0 <= d -> d <= u * (x + d) + eta -> d <= 2 * u * x + 2 * eta.
Proof. move=> [U0 U1] X D H. have UD : u * d <= 1 / 1000000 * d by apply: Rmult_le_compat_r. have : 0 <= u * x by apply: Rmult_le_pos; lra. lra. Qed.
Lemma two_scal (u a b z : R) : u <= 1 / 1000000000000000 -> 0 <= z -> a <= u * z -> b <= z -> a + b <= 2 * z.
Proof. move=> U Z A B. have := Rmult_le_compat_r _ _ _ Z U. lra. Qed.
End Scal.
Lemma psd_cs n (M : 'M[R]_n) i j : psd M -> Rle (Rabs (M i j)) (Rmult (sqrt (M i i)) (sqrt (M j j))).
Proof.
  move=> HM. apply: abs_sq; first by apply: Rmult_le_pos; exact: sqrt_pos.
  have := ProofKalman5.cauchy (delta_mx i 0) (delta_mx j 0) HM. rewrite /qf !delta_entry => K. apply: Rle_trans K _.
  have D k := diag_ge0 k HM.
  have -> : Rmult (Rmult (sqrt (M i i)) (sqrt (M j j))) (Rmult (sqrt (M i i)) (sqrt (M j j))) = Rmult (Rmult (sqrt (M i i)) (sqrt (M i i))) (Rmult (sqrt (M j j)) (sqrt (M j j))) by ring.
  rewrite (sqrt_sqrt _ (D i)) (sqrt_sqrt _ (D j)). rewrite Rmult_comm. exact: Rle_refl.
Qed.
Lemma grad_core n (M A : 'M[R]_n) (b c : 'cV[R]_n) w sv : psd M -> Rle 0 w -> Rle 0 sv -> Rle (Rplus w (Rmult 2 sv)) 1 ->
  (forall i j, Rle (Rabs (Rminus (A i j) (M i j))) (Rmult w (Rmult (sqrt (M i i)) (sqrt (M j j))))) -> solved sv A b c ->
  forall i, Rle (Rabs (b i 0)) (Rmult (sqrt (M i i)) (Rmult 2 (Rmult (sqrt (\sum_j M j j)) (len c)))).
Proof.
  move=> HM W0 S0 WS NR [E [HE <-]] i. have D k := diag_ge0 k HM.
  have Dg k : Rle (sqrt (A k k)) (Rmult (sqrt (Rplus 1 w)) (sqrt (M k k))).
  { rewrite -sqrt_mult_alt; last lra. apply: sqrt_le_1_alt. have := NR k k. rewrite (sqrt_sqrt _ (D k)) => /Rcomplements.Rabs_le_between. move: (A k k) (M k k) => a b'. lra. }
  have Lw j : Rle (Rabs (lower A i j)) (Rmult (Rplus 1 w) (Rmult (sqrt (M i i)) (sqrt (M j j)))).
  { rewrite mxE. case: (j <= i)%N; first exact: near_entry (psd_cs i j HM) (NR i j).
    have := near_entry (psd_cs j i HM) (NR j i). by rewrite (Rmult_comm (sqrt (M j j))). }
  have B j : Rle (Rabs ((lower A + E : 'M[R]_n) i j)) (Rmult 2 (Rmult (sqrt (M i i)) (sqrt (M j j)))).
  { rewrite mxE. have h0 : Rle 0 (Rmult (sqrt (M i i)) (sqrt (M j j))) by apply: Rmult_le_pos; exact: sqrt_pos.
    have EE : Rle (Rabs (E i j)) (Rmult (Rmult 2 sv) (Rmult (sqrt (M i i)) (sqrt (M j j)))).
    { apply: Rle_trans (HE i j) _. have := Rmult_le_compat _ _ _ _ (sqrt_pos _) (sqrt_pos _) (Dg i) (Dg j).
      have -> : Rmult (Rmult (sqrt (Rplus 1 w)) (sqrt (M i i))) (Rmult (sqrt (Rplus 1 w)) (sqrt (M j j))) = Rmult (Rmult (sqrt (Rplus 1 w)) (sqrt (Rplus 1 w))) (Rmult (sqrt (M i i)) (sqrt (M j j))) by ring.
      rewrite sqrt_sqrt; last lra. move: h0. move: (Rmult (sqrt (M i i)) _) (Rmult (sqrt (A i i)) _) => h a h0 K.
      rewrite (Rmult_comm 2) Rmult_assoc. apply: Rmult_le_compat_l => //. apply: Rle_trans K _. apply: Rmult_le_compat_r => //. lra. }
    apply: Rle_trans (Rabs_triang _ _) _. have := Lw j. move: (Rabs (lower A i j)) (Rabs (E i j)) (Rmult (sqrt (M i i)) _) h0 EE => a e h h0 EE K.
    have := Rmult_le_compat_r h _ _ h0 WS. lra. }
  rewrite mxE. apply: Rle_trans (sum_abs _) _.
  apply: (Rle_trans _ (Rmult (Rmult 2 (sqrt (M i i))) (\sum_j Rmult (sqrt (M j j)) (Rabs (c j 0))))).
  - rewrite sum_scale. apply: sum_le => j. toR. rewrite Rabs_mult. have := Rmult_le_compat_r _ _ _ (Rabs_pos (c j 0)) (B j). move: (sqrt _) (sqrt _) (Rabs _) (Rabs _) => p q a' b'. lra.
  - have := abs_dot (\col_j sqrt (M j j)) c.
    have -> : \sum_i0 Rmult (Rabs ((\col_j sqrt (M j j)) i0 0)) (Rabs (c i0 0)) = \sum_j Rmult (sqrt (M j j)) (Rabs (c j 0)).
    { apply: eq_bigr => j _. rewrite mxE Rabs_pos_eq //. exact: sqrt_pos. }
    have -> : sq (\col_j sqrt (M j j)) = \sum_j M j j.
    { apply: eq_bigr => j _. rewrite !mxE. exact: sqrt_sqrt. }
    rewrite -/(len c). have := sqrt_pos (M i i). move: (sqrt (M i i)) (\sum_j Rmult _ _) (Rmult (sqrt _) _) => h a k H0 K.
    have := Rmult_le_compat_l (Rmult 2 h) _ _ ltac:(lra) K. lra.
Qed.
(** The correction, from the rounded sum. *)
Lemma corr_len r n (xp c : 'cV[R]_n) : rnd_ok r -> Rle (INR n) 1000000 ->
  let x' := map_mx r (xp + c) in Rle (len c) (Rplus (len (x' - xp)) (Rplus (Rmult (Rmult 2 u64) (len x')) (sqrt tiny64))).
Proof.
  move=> Hr N1 x'. have [U0 U1] := u64_bounds. have [[R0 R1] _] := tiny_root.
  have [_ E1] := eta_many (conj (pos_INR n) N1) (Rle_refl (sqrt tiny64)).
  have Z := round_len (xp + c) Hr. rewrite -/x' in Z.
  have P : Rle (len (xp + c)) (Rplus (len x') (len (x' - (xp + c)))).
  { rewrite (len_sym x'). have {1}-> : xp + c = x' + ((xp + c) - x') by mx_abel. exact: len_add. }
  have Q : Rle (len c) (Rplus (len (x' - xp)) (len (x' - (xp + c)))).
  { rewrite (len_sym x' (xp + c)). have {1}-> : c = (x' - xp) + ((xp + c) - x') by mx_abel. exact: len_add. }
  have K := @corr_scal u64 (len x') (len (x' - (xp + c))) (Rmult eta64 (INR n)) ltac:(lra) (len_ge0 _) (len_ge0 _).
  have Z' : Rle (len (x' - (xp + c))) (Rplus (Rmult u64 (Rplus (len x') (len (x' - (xp + c))))) (Rmult eta64 (INR n))).
  { apply: Rle_trans Z _. apply: Rplus_le_compat_r. apply: Rmult_le_compat_l P. lra. }
  have := K Z'. have UT := Rmult_le_compat_r _ _ _ (Rlt_le _ _ R0) U1. lra.
Qed.

Lemma sub_entry m (d e : 'cV[R]_m) k : d k 0 = Rplus ((d - e : 'cV[R]_m) k 0) (e k 0).
Proof. rewrite !mxE. toR. move: (d k 0) (e k 0) => a b. by ring. Qed.
(** ** The gradient of the last step *)
Section Last.
Variables (r rs : R -> R) (dot : dot_fun) (msub : R -> nat -> (nat -> R) -> (nat -> R) -> R) (N m n : nat) (piv : 'M[R]_n -> 'S_n).
Hypothesis Hr : rnd_ok r.
Hypothesis Hs : rel_ok rs.
Hypothesis Hd : dot_ok dot.
Hypothesis Hms : msub_ok msub.
Hypothesis HN : Rle (INR N) 1000000.
Hypothesis Hn : (n <= N)%N.
Hypothesis Hm : (m <= N)%N.
Hypothesis n0 : (0 < n)%N.
Let v := vN N.
Let sv := Rmult 9 (Rmult (Rplus (INR n) 2) u64).
Let ldlt (A : 'M[R]_n) b := ldlt_mx (piv A) rs msub A b.

Lemma rhs_part (H : 'M[R]_(m, n)) (d0 : 'cV[R]_m) i : (forall i, Rle tiny64 ((H^T *m H) i i)) ->
  Rle (Rabs (Rminus (rhs_f dot H (map_mx r d0) i 0) ((H^T *m d0) i 0))) (Rmult (sqrt ((H^T *m H) i i)) (Rmult (Rmult 8 v) (Rplus (len d0) (sqrt tiny64)))).
Proof.
  move=> T. have [V0 [V1 V2]] := vN_bounds HN. rewrite -/v in V0 V1 V2. have [U0 U1] := u64_bounds. have [[R0 R1] R2] := tiny_root.
  have M2 : Rle (INR m) 1000000 by apply: Rle_trans HN; apply: le_INR; apply/leP.
  have [_ E1] := eta_many (conj (pos_INR m) M2) (Rle_refl (sqrt tiny64)).
  set d := map_mx r d0. have Z := round_len d0 Hr. rewrite -/d in Z.
  have Ld : Rle (len d) (Rplus (len d0) (len (d - d0))).
  { have {1}-> : d = d0 + (d - d0) by mx_abel. exact: len_add. }
  have K1 := proj1 (near_rhs Hd HN Hm H d i 0). rewrite -/v in K1.
  have SE : size_mul H^T d i 0 = Rplus (\sum_k Rmult (Rabs (col i H k 0)) (Rabs (d k 0))) tiny64.
  { rewrite /size_mul mxE [const_mx _ _ _]mxE. congr (Rplus _ _). rewrite mxE. apply: eq_bigr => k _. by rewrite !mxE. }
  have AD := abs_dot (col i H) d. rewrite -col_sq -/(len d) in AD.
  have SA : Rle (sqrt tiny64) (sqrt ((H^T *m H) i i)) by apply: sqrt_le_1_alt; exact: T.
  have K2 : Rle (Rabs (Rminus ((H^T *m d) i 0) ((H^T *m d0) i 0))) (Rmult (sqrt ((H^T *m H) i i)) (len (d - d0))).
  { have := abs_dot (col i H) (d - d0). rewrite -col_sq -/(len (d - d0)). apply: Rle_trans.
    have -> : Rminus ((H^T *m d) i 0) ((H^T *m d0) i 0) = (H^T *m (d - d0)) i 0 by rewrite mulmxBr; move: (H^T *m d) (H^T *m d0) => P Q; rewrite !mxE.
    rewrite mxE. apply: Rle_trans (sum_abs _) _. apply: sum_le => k. toR. rewrite Rabs_mult [H^T _ _]mxE [col _ _ _ _]mxE. exact: Rle_refl. }
  rewrite SE in K1. move: K1 K2 AD SA Z Ld.
  move: (rhs_f dot H d i 0) ((H^T *m d) i 0) ((H^T *m d0) i 0) (len_ge0 d0) (len_ge0 (d - d0)) => a b c L0 L1.
  move: (len d0) (len d) (len (d - d0)) (sqrt tiny64) (sqrt ((H^T *m H) i i)) (\sum_k _) (Rmult eta64 (INR m)) R0 R1 R2 E1 L0 L1 => l0 ld lz t h S et R0 R1 R2 E1 L0 L1 K1 K2 AD SA Z Ld.
  have h0 : Rle 0 h by lra.
  have ht : Rle (Rmult t t) (Rmult h t) by apply: Rmult_le_compat_r; lra.
  have tr : Rle (Rabs (Rminus a c)) (Rplus (Rabs (Rminus a b)) (Rabs (Rminus b c))).
  { have -> : Rminus a c = Rplus (Rminus a b) (Rminus b c) by ring. exact: Rabs_triang. }
  have S1 : Rle (Rplus S tiny64) (Rmult h (Rplus ld t)) by lra.
  have S2 := Rmult_le_compat_l (Rmult 3 v) _ _ ltac:(lra) S1.
  have uv : Rle u64 v by lra.
  have Z2 : Rle lz (Rmult v (Rplus l0 t)).
  { have := Rmult_le_compat_r l0 _ _ L0 uv. have := Rmult_le_compat_r t _ _ (Rlt_le _ _ R0) uv. have := Rmult_le_pos _ _ (Rlt_le _ _ U0) (Rlt_le _ _ R0). lra. }
  have Z3 : Rle (Rmult v (Rplus l0 t)) (Rplus l0 t) by have := Rmult_le_compat_r (Rplus l0 t) v 1 ltac:(lra) ltac:(lra); lra.
  have Z4 : Rle (Rplus ld t) (Rmult 2 (Rplus l0 t)) by lra.
  have P1 := Rmult_le_compat_l (Rmult (Rmult 3 v) h) _ _ (Rmult_le_pos (Rmult 3 v) h ltac:(lra) h0) Z4.
  have P2 := Rmult_le_compat_l h _ _ h0 Z2.
  have P3 : Rle 0 (Rmult h (Rmult v (Rplus l0 t))) by apply: Rmult_le_pos => //; apply: Rmult_le_pos; lra.
  lra.
Qed.

Lemma last_step (M A : 'M[R]_n) (b g xp x' : 'cV[R]_n) (w l e E : R) : psd M -> (forall i, Rlt 0 (M i i)) -> Rlt 0 l -> Rle l 1 -> Rle 0 w -> apart l M ->
  (forall i j, Rle (Rabs (Rminus (A i j) (M i j))) (Rmult w (Rmult (sqrt (M i i)) (sqrt (M j j))))) ->
  Rle (Rmult (Rmult 2 (INR n)) (Rplus (Rmult 2 sv) w)) l ->
  (forall i, Rle (Rabs (Rminus (b i 0) (g i 0))) (Rmult (sqrt (M i i)) e)) ->
  (c <- ldlt A b ;; Ret (map_mx r (xp + c))) = Ret x' -> Rle (len (x' - xp)) E ->
  forall i, Rle (Rabs (g i 0)) (Rmult (sqrt (M i i)) (Rplus (Rmult (Rmult 2 (sqrt (\sum_j M j j))) (Rplus E (Rplus (Rmult (Rmult 2 u64) (len x')) (sqrt tiny64)))) e)).
Proof.
  move=> HM M0 L0 L1 W0 AP NR HE HB Es LE i. have [N1 N2] := n_range1 HN Hn n0. have [U0 U1] := u64_bounds.
  have sv0 : Rle 0 sv by apply: Rmult_le_pos; [lra|apply: Rmult_le_pos; lra].
  have [c [Ec Sc]] := @ProofLdlt7.solves rs msub N n (piv A) Hs Hms HN Hn l L0 L1 M A w b (proj1 HM) M0 AP NR W0 HE.
  have WS : Rle (Rplus w (Rmult 2 sv)) 1.
  { have P : Rle 0 (Rplus (Rmult 2 sv) w) by lra. have := Rmult_le_compat_r _ _ _ P N1. lra. }
  have G := grad_core HM W0 sv0 WS NR Sc i.
  move: Es. rewrite /ldlt Ec /= => -[Ex]. have C := corr_len xp c Hr N2. rewrite /= Ex in C.
  have h0 := sqrt_pos (M i i). have k0 := sqrt_pos (\sum_j M j j).
  have C2 : Rle (len c) (Rplus E (Rplus (Rmult (Rmult 2 u64) (len x')) (sqrt tiny64))) by lra.
  move: C2. move: (Rplus E _) => F C2.
  have K1 := Rmult_le_compat_l _ _ _ h0 (Rmult_le_compat_l 2 _ _ ltac:(lra) (Rmult_le_compat_l _ _ _ k0 C2)).
  have T : Rle (Rabs (g i 0)) (Rplus (Rabs (b i 0)) (Rabs (Rminus (b i 0) (g i 0)))).
  { rewrite (Rabs_minus_sym (b i 0)). have Q (p q : R) : Rle (Rabs q) (Rplus (Rabs p) (Rabs (Rminus q p))). { have {1}-> : q = Rplus p (Rminus q p) by ring. exact: Rabs_triang. } exact: Q. }
  have := HB i. move: G K1 T. move: (Rabs _) (Rabs _) (Rabs _) (sqrt (M i i)) (sqrt (\sum_j _)) (len c) => p1 p2 p3 h k c' G K1 T HBi. lra.
Qed.
Lemma cost_part (y : 'cV[R]_m) (H : 'M[R]_(m, n)) x : Rle (Rabs (Rminus (cost_f r dot y H x) (Rmult (Rdiv 1 2) (sq (y - H *m x))))) (Rmult (Rmult 10 v) (Rplus (sq (resid_size H y x)) tiny64)).
Proof. exact: cost_near. Qed.

Variables (hF : 'cV[R]_n -> 'cV[R]_m) (HF : 'cV[R]_n -> 'M[R]_(m, n)) (y : 'cV[R]_m) (eps : R).
Lemma nls_last fuel (H : 'M[R]_(m, n)) (x x1 : 'cV[R]_n) H' x' x1' J' :
  Rlt eps (norm_f r dot (map_mx r (x1 - x))) -> unweighted_nls_f r dot ldlt hF HF y eps fuel H x x1 = Ret (H', x', x1', J') ->
  exists xp, [/\ H' = HF xp, x1' = x', Rle (len (x' - xp)) (Rplus (Rmult (Rdiv 101 100) eps) (sqrt tiny64)),
    Rle (Rabs (Rminus J' (Rmult (Rdiv 1 2) (sq (y - H' *m x'))))) (Rmult (Rmult 10 v) (Rplus (sq (resid_size H' y x')) tiny64)) &
    forall l, Rlt 0 l -> Rle l 1 -> apart l (H'^T *m H') -> (forall i, Rle tiny64 ((H'^T *m H') i i)) ->
    Rle (Rmult (Rmult 2 (INR n)) (Rplus (Rmult 2 sv) (Rmult 6 v))) l ->
    forall i, Rle (Rabs ((H'^T *m (y - hF xp)) i 0)) (Rmult (sqrt ((H'^T *m H') i i))
      (Rplus (Rmult (Rmult 2 (sqrt (\sum_j (H'^T *m H') j j))) (Rplus (Rplus (Rmult (Rdiv 101 100) eps) (sqrt tiny64)) (Rplus (Rmult (Rmult 2 u64) (len x')) (sqrt tiny64))))
             (Rmult (Rmult 8 v) (Rplus (len (y - hF xp)) (sqrt tiny64)))))].
Proof.
  move=> E. rewrite /unweighted_nls_f. case El: (nls_loop_f _ _ _ _ _ _ _ _ _ _) => [[[H2 x2] x3]| | | |] //= [<- <- <- <-].
  have [xp [-> Es -> W]] := loop_return E El. exists xp. have [_ W2] := norm_f_ok Hr Hd HN Hn n0 x2 xp.
  have LE : Rle (len (x2 - xp)) (Rplus (Rmult (Rdiv 101 100) eps) (sqrt tiny64)) by lra.
  have [V0 [V1 V2]] := vN_bounds HN. rewrite -/v in V0 V1 V2.
  split=> //; first exact: cost_part.
  move=> l L0 L1 AP T HE.
  have HP : psd ((HF xp)^T *m HF xp) by have := psd_congrT (HF xp) (psd1 m); rewrite mulmx1.
  apply: (last_step HP _ L0 L1 _ AP _ HE _ Es LE).
  - move=> i. exact: Rlt_le_trans tiny_pos (T i).
  - lra.
  - move=> i j. have := proj1 (near_normal Hd HN Hm (HF xp) i j). have := size_normal i j T. have : Rle 0 (Rmult 3 v) by lra. rewrite -/v.
    move: (size_mul _ _ i j) (Rmult (sqrt _) _) => a b' P Q K. apply: Rle_trans K _. have := Rmult_le_compat_l _ _ _ P Q. lra.
  - move=> i. exact: rhs_part.
Qed.
Lemma wnls_last (W : 'M[R]_m) q fuel (H : 'M[R]_(m, n)) (x x1 : 'cV[R]_n) H' x' x1' J' : psd W -> Rle 1 q ->
  Rlt eps (norm_f r dot (map_mx r (x1 - x))) -> weighted_nls_f r dot ldlt hF HF y W eps fuel H x x1 = Ret (H', x', x1', J') ->
  exists xp, [/\ H' = HF xp, x1' = x', Rle (len (x' - xp)) (Rplus (Rmult (Rdiv 101 100) eps) (sqrt tiny64)),
    Rle (Rabs (Rminus J' (Rmult (Rdiv 1 2) (sq (y - H' *m x'))))) (Rmult (Rmult 10 v) (Rplus (sq (resid_size H' y x')) tiny64)) &
    forall l Y, Rlt 0 l -> Rle l 1 -> sound_at W q l Y H' (y - hF xp) ->
    Rle (Rmult (Rmult 2 (INR n)) (Rplus (Rmult 2 sv) (Rmult (Rmult 6 q) v))) l ->
    forall i, Rle (Rabs ((H'^T *m W *m (y - hF xp)) i 0)) (Rmult (sqrt ((H'^T *m W *m H') i i))
      (Rplus (Rmult (Rmult 2 (sqrt (\sum_j (H'^T *m W *m H') j j))) (Rplus (Rplus (Rmult (Rdiv 101 100) eps) (sqrt tiny64)) (Rplus (Rmult (Rmult 2 u64) (len x')) (sqrt tiny64))))
             (Rmult (Rmult (Rmult 13 q) v) Y)))].
Proof.
  move=> HW q1 E. rewrite /weighted_nls_f. case El: (nls_loop_f _ _ _ _ _ _ _ _ _ _) => [[[H2 x2] x3]| | | |] //= [<- <- <- <-].
  have [xp [-> Es -> Wn]] := loop_return E El. exists xp. have [_ W2] := norm_f_ok Hr Hd HN Hn n0 x2 xp.
  have LE : Rle (len (x2 - xp)) (Rplus (Rmult (Rdiv 101 100) eps) (sqrt tiny64)) by lra.
  have [V0 [V1 V2]] := vN_bounds HN. rewrite -/v in V0 V1 V2. have [U0 U1] := u64_bounds.
  split=> //; first exact: cost_part.
  move=> l Y L0 L1 [[AP T] SN SR HYx] HE.
  have Q6 : Rle 0 (Rmult 6 q) by lra.
  apply: (last_step (psd_congrT (HF xp) HW) T L0 L1 (Rmult_le_pos _ _ Q6 (Rlt_le _ _ V0)) AP _ HE _ Es LE).
  - move=> i j. have := proj1 (near_wnormal Hd HN Hm (HF xp) W i j). have := SN i j. have : Rle 0 (Rmult 6 v) by lra. rewrite -/v.
    move: (size_mul _ _ i j) (Rmult (sqrt _) _) => a b' P Q K. apply: Rle_trans K _. have := Rmult_le_compat_l _ _ _ P Q. lra.
  - move=> i. set d := map_mx r (y - hF xp). set dl := d - (y - hF xp). set z := map_mx Rabs (y - hF xp) + const_mx tiny64 in SR HYx.
    have RD k : Rle (Rabs (dl k 0)) (Rmult u64 (z k 0)).
    { rewrite /dl /d /z. have := Hr ((y - hF xp : 'cV[R]_m) k 0). rewrite eta_tiny -Rmult_plus_distr_l. move: (y - hF xp) => a. by rewrite !mxE. }
    have zp k : Rle 0 (z k 0).
    { rewrite /z mxE [const_mx _ _ _]mxE [map_mx _ _ _ _]mxE. apply: Rplus_le_le_0_compat; [exact: Rabs_pos|exact: Rlt_le tiny_pos]. }
    have Dz k : Rle (Rabs (d k 0)) (Rmult 2 (z k 0)).
    { have -> : d k 0 = Rplus (dl k 0) ((y - hF xp : 'cV[R]_m) k 0) by exact: sub_entry.
      have K : Rle (Rabs ((y - hF xp : 'cV[R]_m) k 0)) (z k 0).
      { rewrite /z [X in Rle _ X]mxE [const_mx _ _ _]mxE [map_mx _ _ _ _]mxE. have := tiny_pos. move: (Rabs _) => a t0. apply: (Rle_trans _ (Rplus a tiny64)); [lra|exact: Rle_refl]. }
      apply: Rle_trans (Rabs_triang _ _) _. apply: two_scal U1 (zp k) (RD k) K. }
    have Dl : Rle (wlen W dl) (Rmult u64 Y).
    { have iu : Rlt 0 (/ u64) by exact: Rinv_0_lt_compat.
      have -> : dl = u64 *: (/ u64 *: dl).
      { apply/matrixP => k j. rewrite [RHS]mxE [X in _ = _ * X]mxE. have S (a : R) : a = Rmult u64 (Rmult (/ u64) a) by field; lra. exact: S. }
      rewrite wlen_scale; last lra. apply: Rmult_le_compat_l; first lra.
      apply: HYx => k. have -> : (/ u64 *: dl) k 0 = Rmult (/ u64) (dl k 0) by rewrite mxE.
      rewrite Rabs_mult (Rabs_pos_eq (/ u64)); last lra.
      have := Rmult_le_compat_l _ _ _ (Rlt_le _ _ iu) (RD k). by rewrite -Rmult_assoc Rinv_l ?Rmult_1_l //; lra. }
    have K1 : Rle (Rabs (Rminus (((HF xp)^T *m W *m d) i 0) (((HF xp)^T *m W *m (y - hF xp)) i 0))) (Rmult (sqrt (((HF xp)^T *m W *m HF xp) i i)) (Rmult u64 Y)).
    { have -> : Rminus (((HF xp)^T *m W *m d) i 0) (((HF xp)^T *m W *m (y - hF xp)) i 0) = ((HF xp *m delta_mx i (0 : 'I_1))^T *m W *m dl) 0 0.
      { rewrite trmx_mul trmx_delta -!mulmxA -rowE [RHS]mxE !mulmxA. rewrite /dl (mulmxBr _ d). move: ((HF xp)^T *m W *m d) ((HF xp)^T *m W *m (y - hF xp)) => P Q. by rewrite !mxE. }
      have Ew : wlen W (HF xp *m delta_mx i (0 : 'I_1)) = sqrt (((HF xp)^T *m W *m HF xp) i i).
      { rewrite /wlen /qf. congr sqrt. rewrite -(delta_entry ((HF xp)^T *m W *m HF xp) i i) trmx_mul !mulmxA. done. }
      rewrite -Ew. apply: (Rle_trans _ (Rmult (wlen W (HF xp *m delta_mx i (0 : 'I_1))) (wlen W dl))); last by apply: Rmult_le_compat_l Dl; exact: wlen_ge0.
      apply: abs_sq; first by apply: Rmult_le_pos; exact: wlen_ge0.
      have Ab (a b : R) : Rmult (Rmult a b) (Rmult a b) = Rmult (Rmult b b) (Rmult a a) by ring. rewrite Ab !wlen_sq //. exact: ProofKalman5.cauchy. }
    have K2 := proj1 (near_wrhs Hd HN Hm (HF xp) d W i 0). rewrite -/v in K2.
    have K3 := size_mono (size_mul (HF xp)^T W) i Dz. have K4 := SR i.
    move: K1 K2 K3 K4 (sqrt_pos (((HF xp)^T *m W *m HF xp) i i)).
    have Y0 : Rle 0 Y by apply: Rle_trans (wlen_ge0 W z) (HYx z _) => k; rewrite (Rabs_pos_eq _ (zp k)); exact: Rle_refl.
    move: (wrhs_f dot (HF xp) W d i 0) (((HF xp)^T *m W *m d) i 0) (((HF xp)^T *m W *m (y - hF xp)) i 0) (sqrt (((HF xp)^T *m W *m HF xp) i i)) (size_mul _ d i 0) (size_mul _ z i 0) => a b c h s1 s2 K1 K2 K3 K4 h0.
    have tr : Rle (Rabs (Rminus a c)) (Rplus (Rabs (Rminus a b)) (Rabs (Rminus b c))).
    { have -> : Rminus a c = Rplus (Rminus a b) (Rminus b c) by ring. exact: Rabs_triang. }
    have hY : Rle 0 (Rmult h Y) by apply: Rmult_le_pos.
    have P6 : Rle 0 (Rmult 6 v) by lra.
    have M1 := Rmult_le_compat_l _ _ _ P6 (Rle_trans _ _ _ K3 (Rmult_le_compat_l 2 _ _ ltac:(lra) K4)).
    have uv : Rle u64 (Rmult q v) by have := Rmult_le_compat_r v 1 q ltac:(lra) q1; lra.
    have M2 := Rmult_le_compat_r _ _ _ hY uv. lra.
Qed.
End Last.

(** ** Weights on the diagonal *)
Lemma sound_of_diag m n (W : 'M[R]_m) l Y (H : 'M[R]_(m, n)) (d : 'cV[R]_m) : (forall i j, i != j -> W i j = 0) -> (forall i, Rle 0 (W i i)) -> Rle 0 Y ->
  sound_diag W l Y H d -> sound_at W 2 l Y H d.
Proof.
  move=> Wo W0 Y0 [HA S1 [S2 S3] HY]. rewrite /sound_at. set A := H^T *m W *m H in HA S1 S2 *. set z := map_mx Rabs d + const_mx tiny64 in S2 S3 HY *.
  have zp k : Rlt 0 (z k 0).
  { rewrite /z mxE [const_mx _ _ _]mxE [map_mx _ _ _ _]mxE. apply: (Rplus_le_lt_0_compat (Rabs _) tiny64); [exact: Rabs_pos|exact: tiny_pos]. }
  have zs : Rle 0 (\sum_k z k 0) by apply: sum_ge0 => k; exact: Rlt_le (zp k).
  have tz : Rlt 0 (Rmult tiny64 (Rplus 1 (\sum_k z k 0))).
  { apply: Rmult_lt_0_compat; first exact: tiny_pos. move: (\sum_k _) zs => a. lra. }
  split.
  - split=> // i. exact: Rlt_le_trans tz (S2 i).
  - exact: diag_size_normal.
  - move=> i. have := abs_dot (col i (scaled W H)) (scaled W z). rewrite (diag_size H Wo W0).
    have -> : \sum_i0 Rmult (Rabs (col i (scaled W H) i0 0)) (Rabs (scaled W z i0 0)) = \sum_k Rmult (Rabs (Rmult (sqrt (W k k)) (H k i))) (Rabs (Rmult (sqrt (W k k)) (z k 0))).
    { apply: eq_bigr => k _. by rewrite !mxE. }
    have -> : \sum_k Rabs (z k 0) = \sum_k z k 0 by apply: eq_bigr => k _; rewrite Rabs_pos_eq //; exact: Rlt_le (zp k).
    rewrite -(diag_entry H Wo W0) -/A -(diag_qf z Wo W0) -/(wlen W z).
    have := tiny_mean (Rlt_le _ _ tz) (S2 i) S3. rewrite sqrt_square //.
    move: (\sum_k Rmult (Rabs _) _) (Rmult tiny64 _) (sqrt_pos (A i i)) => a b s0 K1 K2.
    have := Rmult_le_compat_l _ _ _ s0 HY. move: (sqrt (A i i)) (wlen W z) K1 K2 => c d' K1 K2 K3. lra.
  - move=> v Hv. apply: Rle_trans HY. rewrite /wlen. apply: sqrt_le_1_alt. rewrite (diag_qf v Wo W0) (diag_qf z Wo W0). apply: sum_le => k.
    have SE (w : 'cV[R]_m) : scaled W w k 0 = Rmult (sqrt (W k k)) (w k 0) by rewrite mxE.
    rewrite !SE. toR.
    have K : Rle (Rmult (v k 0) (v k 0)) (Rmult (z k 0) (z k 0)).
    { have -> : Rmult (v k 0) (v k 0) = Rmult (Rabs (v k 0)) (Rabs (v k 0)) by rewrite -Rabs_mult Rabs_right //; exact: Rle_ge (Rle_0_sqr _).
      apply: Rmult_le_compat; try exact: Rabs_pos; exact: Hv. }
    have M (a b : R) : Rmult (Rmult a b) (Rmult a b) = Rmult (Rmult a a) (Rmult b b) by ring.
    rewrite !M (sqrt_sqrt _ (W0 k)). exact: (Rmult_le_compat_l _ _ _ (W0 k) K).
Qed.

(** ** Cases *)
Section CaseScal.
Local Open Scope R_scope.
Lemma case_bound u w a h v x e : 0 < u <= 1 / 1000000000000000 -> 0 <= w <= 1 / 1000000000000 -> h = sqrt a -> 0 <= a <= 14 -> 0 <= x <= 2 -> 0 <= e -> e <= 160 * u ->
  v <= h * (2 * h * (101 / 100 * (1 / 100000000000) + w + (2 * u * x + w)) + e) -> v <= 1 / 2500000000.
Proof.
  move=> [U0 U1] [W0 W1] E [A0 A1] [X0 X1] E0 E1 H. have h0 : 0 <= h by rewrite E; exact: sqrt_pos. have h2 : h * h = a by rewrite E sqrt_sqrt.
  have hb : h <= 4 by nra.
  have F : 2 * u * x <= 4 / 1000000000000000 by nra.
  set y := 101 / 100 * (1 / 100000000000) + w + (2 * u * x + w) in H. have Y0 : 0 <= y by rewrite /y; nra. have Y1 : y <= 122 / 10000000000000 by rewrite /y; lra.
  have K1 : a * y <= 14 * y by apply: Rmult_le_compat_r; lra. have K2 : h * e <= 4 * e by apply: Rmult_le_compat_r; lra.
  have EE : h * (2 * h * y + e) = 2 * (a * y) + h * e by rewrite -h2; ring.
  lra.
Qed.
Lemma ball_scal a b w : Rabs (a - 1) <= 3 / 200000000000 -> Rabs (a - b) <= 101 / 100 * (1 / 100000000000) + w -> 0 <= w <= 1 / 1000000000000 ->
  Rabs (b - 1) <= 1 / 2 /\ 1 / 2 <= b <= 3 / 2 /\ 0 <= Rabs a <= 2.
Proof. move=> /Rcomplements.Rabs_le_between A /Rcomplements.Rabs_le_between B W. split; [apply: Rabs_le; lra|]. split; [lra|]. split; [exact: Rabs_pos|]. apply: Rabs_le. lra. Qed.
Lemma entry_scal b : 1 / 2 <= b <= 3 / 2 -> 0 <= 2 * b * (2 * b) + 1 <= 14 /\ 0 <= 2 * b * (2 * b) + 4 <= 14.
Proof. move=> B. nra. Qed.
End CaseScal.
Lemma sqf_last (piv : 'M[R]_1 -> 'S_1) : exists H' x' J' xp,
  unweighted_nls_f rnd64 (@dot_loop rnd64) (fun A b => ldlt_mx (piv A) rnd53 (msub_loop rnd53) A b) sqf sqH (pairv (9 / 8) (3 / 4)) (1 / 100000000000) 41 (sqH 0) (one1 (3 / 2)) (one1 0) = Ret (H', x', x', J') /\
  H' = sqH xp /\ Rle (Rabs ((H'^T *m (pairv (9 / 8) (3 / 4) - sqf xp)) 0 0)) (1 / 2500000000).
Proof.
  have [U0 U1] := u64_bounds. have [[W0 W1] _] := tiny_root. have [H' [x' [J' [E S]]]] := sqf_case piv.
  have HN : Rle (INR 2) 1000000 by rewrite /=; lra.
  have Hd := dot_loop_ok rnd64_rnd_ok. have I1 : INR 1 = R1 by [].
  have EV : vN 2 = Rmult 3 u64 by rewrite /vN /=; ring.
  have Er : Rlt (1 / 100000000000) (norm_f rnd64 (@dot_loop rnd64) (map_mx rnd64 (one1 0 - one1 (3 / 2)))).
  { have [_ K] := @norm_f_ok rnd64 (@dot_loop rnd64) 2 1 rnd64_rnd_ok Hd HN isT isT (one1 0) (one1 (3 / 2)).
    move: K. rewrite one_len Rabs_left; last lra. lra. }
  have [xp [EH _ LE _ G]] := @nls_last rnd64 rnd53 (@dot_loop rnd64) (msub_loop rnd53) 2 2 1 piv rnd64_rnd_ok rnd53_rel Hd (msub_loop_ok _ rnd53_rel) HN isT isT isT sqf sqH _ _ _ _ _ _ _ _ _ _ Er E.
  exists H', x', J', xp. split=> //. split=> //.
  have LE' : Rle (Rabs (Rminus (x' 0 0) (xp 0 0))) (Rplus (Rmult (Rdiv 101 100) (1 / 100000000000)) (sqrt tiny64)) by move: LE; rewrite len_one !mxE.
  have [B1 [B2 B3]] := ball_scal S LE' (conj (Rlt_le _ _ W0) W1).
  have [] := sqf_tame (x := xp); first by rewrite len_one !mxE.
  move=> [_ [AP T]] _ _ HY. rewrite -EH in AP T.
  have HE : Rle (Rmult (Rmult 2 (INR 1)) (Rplus (Rmult 2 (Rmult 9 (Rmult (Rplus (INR 1) 2) u64))) (Rmult 6 (vN 2)))) 1 by rewrite I1 EV; lra.
  have := G _ Rlt_0_1 (Rle_refl 1) AP T HE 0.
  have N : (H'^T *m H') 0 0 = Rplus (Rmult (Rmult 2 (xp 0 0)) (Rmult 2 (xp 0 0))) 1.
  { rewrite EH !mxE !big_ord_recl big_ord0 !mxE /=. toR. eqR. atoms. ring. }
  rewrite big_ord1 N len_one. have [B4 _] := entry_scal B2.
  apply: (case_bound (conj U0 U1) (conj (Rlt_le _ _ W0) W1) erefl B4 B3).
  - apply: Rmult_le_pos; [rewrite EV; lra|]. have := len_ge0 (pairv (9 / 8) (3 / 4) - sqf xp). lra.
  - rewrite EV. have K : Rle (Rplus (len (pairv (9 / 8) (3 / 4) - sqf xp)) (sqrt tiny64)) 3 by lra.
    have := Rmult_le_compat_l (Rmult 8 (Rmult 3 u64)) _ _ ltac:(lra) K. lra.
Qed.
Lemma wsqf_last (piv : 'M[R]_1 -> 'S_1) : exists H' x' J' xp,
  weighted_nls_f rnd64 (@dot_loop rnd64) (fun A b => ldlt_mx (piv A) rnd53 (msub_loop rnd53) A b) sqf sqH (pairv (9 / 8) (15 / 16)) w14 (1 / 100000000000) 41 (sqH 0) (one1 (3 / 2)) (one1 0) = Ret (H', x', x', J') /\
  H' = sqH xp /\ sound_diag w14 1 2 H' (pairv (9 / 8) (15 / 16) - sqf xp) /\ Rle (Rabs ((H'^T *m w14 *m (pairv (9 / 8) (15 / 16) - sqf xp)) 0 0)) (1 / 2500000000).
Proof.
  have [U0 U1] := u64_bounds. have [[W0 W1] _] := tiny_root. have [H' [x' [J' [E S]]]] := wsqf_case piv.
  have HN : Rle (INR 2) 1000000 by rewrite /=; lra.
  have Hd := dot_loop_ok rnd64_rnd_ok. have I1 : INR 1 = R1 by [].
  have EV : vN 2 = Rmult 3 u64 by rewrite /vN /=; ring.
  have q1 : Rle 1 2 by lra. have Y0 : Rle 0 2 by lra. have HW := diag_psd w14_off w14_diag.
  have Er : Rlt (1 / 100000000000) (norm_f rnd64 (@dot_loop rnd64) (map_mx rnd64 (one1 0 - one1 (3 / 2)))).
  { have [_ K] := @norm_f_ok rnd64 (@dot_loop rnd64) 2 1 rnd64_rnd_ok Hd HN isT isT (one1 0) (one1 (3 / 2)).
    move: K. rewrite one_len Rabs_left; last lra. lra. }
  have [xp [EH _ LE _ G]] := @wnls_last rnd64 rnd53 (@dot_loop rnd64) (msub_loop rnd53) 2 2 1 piv rnd64_rnd_ok rnd53_rel Hd (msub_loop_ok _ rnd53_rel) HN isT isT isT sqf sqH _ _ _ 2 _ _ _ _ _ _ _ _ HW q1 Er E.
  exists H', x', J', xp. split=> //. split=> //.
  have LE' : Rle (Rabs (Rminus (x' 0 0) (xp 0 0))) (Rplus (Rmult (Rdiv 101 100) (1 / 100000000000)) (sqrt tiny64)) by move: LE; rewrite len_one !mxE.
  have [B1 [B2 B3]] := ball_scal S LE' (conj (Rlt_le _ _ W0) W1).
  have [] := wsqf_tame (x := xp); first by rewrite len_one !mxE.
  move=> [_ AP] [S1 [S2 S3]] _ _ HY.
  have SD : sound_diag w14 1 2 H' (pairv (9 / 8) (15 / 16) - sqf xp) by rewrite EH.
  split=> //.
  have HE : Rle (Rmult (Rmult 2 (INR 1)) (Rplus (Rmult 2 (Rmult 9 (Rmult (Rplus (INR 1) 2) u64))) (Rmult (Rmult 6 2) (vN 2)))) 1 by rewrite I1 EV; lra.
  have := G _ _ Rlt_0_1 (Rle_refl 1) (sound_of_diag w14_off w14_diag Y0 SD) HE 0.
  have N : (H'^T *m w14 *m H') 0 0 = Rplus (Rmult (Rmult 2 (xp 0 0)) (Rmult 2 (xp 0 0))) 4.
  { rewrite EH !mxE !big_ord_recl big_ord0 !mxE !big_ord_recl !big_ord0 !mxE /=. toR. eqR. atoms. ring. }
  rewrite big_ord1 N len_one. have [_ B4] := entry_scal B2.
  apply: (case_bound (conj U0 U1) (conj (Rlt_le _ _ W0) W1) erefl B4 B3).
  - rewrite EV. lra.
  - rewrite EV. lra.
Qed.
