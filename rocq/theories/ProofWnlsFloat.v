(** Rounding errors of weighted nonlinear least squares. *)
From Coq Require Import Reals Lra Psatz.
From mathcomp Require Import all_ssreflect all_fingroup all_algebra.
From Verif Require Import Base BaseMx ModelEigen ModelKalman ModelBls ModelFilterFloat ModelBlsFloat ModelNlsFloat ModelLdltFloat ModelLdltMx SpecFloatOps SpecKalman SpecFilter SpecBls SpecFilterFloat SpecUpdateFloat SpecBlsFloat SpecLdltFloat SpecNlsFloat SpecWnlsFloat
  ProofMx ProofKalman ProofKalman2 ProofKalman3 ProofKalman5 ProofBls ProofBls2 ProofStrapdownFloat ProofFilterFloat ProofUpdateFloat ProofLongFloat ProofBlsFloat ProofBlsFloat2 ProofBlsFloat3 ProofBlsFloat4 ProofLdlt7 ProofLdlt8 ProofGaussNewton ProofNlsFloat ProofNlsFloat2.
Set Implicit Arguments.
Unset Strict Implicit.
Unset Printing Implicit Defensive.
Import GRing.Theory.
Local Open Scope ring_scope.
Local Open Scope outcome_scope.

Section Wlen.
Variables (m : nat) (W : 'M[R]_m).
Hypothesis HW : psd W.
Lemma wlen_ge0 v : Rle 0 (wlen W v). Proof. exact: sqrt_pos. Qed.
Lemma wlen_sq v : Rmult (wlen W v) (wlen W v) = qf W v.
Proof. apply: sqrt_sqrt. exact: (proj2 HW). Qed.
Lemma wdot (v w : 'cV[R]_m) : Rle ((v^T *m W *m w) 0 0) (Rmult (wlen W v) (wlen W w)).
Proof.
  apply: Rnot_lt_le => C. have := ProofKalman5.cauchy v w HW. rewrite -!wlen_sq.
  move: C (wlen_ge0 v) (wlen_ge0 w). move: ((v^T *m W *m w) 0 0) (wlen W v) (wlen W w) => c a b C A B.
  have N : Rle 0 (Rmult a b) by apply: Rmult_le_pos. move: C N. clear. move=> C N. nra.
Qed.
Lemma wlen_add (v w : 'cV[R]_m) : Rle (wlen W (v + w)) (Rplus (wlen W v) (wlen W w)).
Proof.
  apply: sqrt_of_sq; [exact: wlen_ge0|by apply: Rplus_le_le_0_compat; apply: wlen_ge0|]. rewrite wlen_sq.
  apply: (@tri_scal _ _ ((v^T *m W *m w) 0 0)); try exact: wlen_ge0.
  - have := ProofKalman5.cauchy v w HW. rewrite -!wlen_sq. toR. lra.
  - rewrite !wlen_sq (qf_add v w (proj1 HW)). rewrite mulr2n. toR. lra.
Qed.
Lemma wlen_scale (k : R) v : Rle 0 k -> wlen W (k *: v) = Rmult k (wlen W v).
Proof.
  move=> K. rewrite /wlen. have -> : qf W (k *: v) = Rmult (Rmult k k) (qf W v).
  { have E : (k *: v)^T = k *: v^T by apply/matrixP => i j; rewrite !mxE.
    rewrite /qf E -!scalemxAl -scalemxAr mxE [X in k * X]mxE. toR. by rewrite -Rmult_assoc. }
  rewrite sqrt_mult_alt; last exact: Rle_0_sqr. by rewrite sqrt_square.
Qed.
End Wlen.

Lemma wexact_part m n (W : 'M[R]_m) (H : 'M[R]_(m, n)) (y hs yx dl : 'cV[R]_m) (x xs c : 'cV[R]_n) s E G : psd W -> Rlt 0 s -> Rle 0 E -> Rle 0 G ->
  (forall v : 'cV[R]_n, Rle (Rmult s (len v)) (wlen W (H *m v))) ->
  H^T *m W *m H *m c = H^T *m W *m (y - yx + dl) ->
  Rle (wlen W (hs - (yx + H *m (xs - x)) + dl)) E -> Rle (len (H^T *m W *m (y - hs))) G ->
  Rle (len (x + c - xs)) (Rplus (Rdiv E s) (Rdiv G (Rmult s s))).
Proof.
  move=> HW S0 E0 G0 HS N HE HG. set D := x + c - xs. set e := hs - (yx + H *m (xs - x)) + dl in HE.
  have F : H^T *m W *m H *m D = H^T *m W *m e + H^T *m W *m (y - hs).
  { have -> : D = c - (xs - x) by rewrite /D; mx_abel. rewrite mulmxBr N -!mulmxA -mulmxBr -mulmxDr. congr (_ *m _). rewrite -mulmxBr -mulmxDr. congr (_ *m _). rewrite /e. mx_abel. }
  apply: (@lin_scal s (len D) (wlen W (H *m D)) E G (((H *m D)^T *m W *m e) 0 0) ((D^T *m (H^T *m W *m (y - hs))) 0 0)) => //; try exact: len_ge0; try exact: wlen_ge0.
  - rewrite wlen_sq // /qf. have -> : (H *m D)^T *m W *m (H *m D) = D^T *m (H^T *m W *m H *m D) by rewrite trmx_mul !mulmxA.
    by rewrite F mulmxDr mxE trmx_mul !mulmxA.
  - apply: Rle_trans (wdot HW _ _) _. apply: Rmult_le_compat_l HE. exact: wlen_ge0.
  - apply: Rle_trans (dot_len _ _) _. apply: Rmult_le_compat_l HG. exact: len_ge0.
Qed.
Lemma size_mono m k (M : 'M[R]_(m, k)) (v z : 'cV[R]_k) i : (forall i, Rle (Rabs (v i 0)) (Rmult 2 (z i 0))) ->
  Rle (size_mul M v i 0) (Rmult 2 (size_mul M z i 0)).
Proof.
  move=> B. rewrite /size_mul !mxE. have T := tiny_pos.
  have S : Rle (\sum_j map_mx Rabs M i j * map_mx Rabs v j 0) (Rmult 2 (\sum_j map_mx Rabs M i j * map_mx Rabs z j 0)).
  { rewrite sum_scale. apply: sum_le => j. rewrite !mxE. toR. have Z : Rle (z j 0) (Rabs (z j 0)) by exact: Rle_abs.
    have BB : Rle (Rabs (v j 0)) (Rmult 2 (Rabs (z j 0))) by have := B j; lra.
    have := Rmult_le_compat_l _ _ _ (Rabs_pos (M i j)) BB. lra. }
  move: S. move: (\sum_j _) (\sum_j _) => a b. toR. lra.
Qed.

Section Main.
Variables (r : R -> R) (dot : dot_fun) (N m n : nat) (solve : 'M[R]_n -> 'cV[R]_n -> outcome 'cV[R]_n) (W : 'M[R]_m) (q : R).
Hypothesis Hr : rnd_ok r.
Hypothesis Hd : dot_ok dot.
Hypothesis HN : Rle (INR N) 1000000.
Hypothesis Hn : (n <= N)%N.
Hypothesis Hm : (m <= N)%N.
Hypothesis n0 : (0 < n)%N.
Hypothesis HW : psd W.
Hypothesis q1 : Rle 1 q.
Let v := vN N.

Lemma wsolve_part (H : 'M[R]_(m, n)) (d z : 'cV[R]_m) (c : 'cV[R]_n) l sv Y : Rlt 0 l -> Rle l 1 -> Rle 0 sv ->
  apart l (H^T *m W *m H) ->
  (forall i j, Rle (size_mul (size_mul H^T W) H i j) (Rmult q (Rmult (sqrt ((H^T *m W *m H) i i)) (sqrt ((H^T *m W *m H) j j))))) ->
  (forall i, Rle (size_mul (size_mul H^T W) z i 0) (Rmult q (Rmult (sqrt ((H^T *m W *m H) i i)) Y))) ->
  (forall i, Rle (Rabs (d i 0)) (Rmult 2 (z i 0))) -> Rle (wlen W d) (Rmult 2 Y) ->
  solved sv (wnormal_f dot H W) (wrhs_f dot H W d) c ->
  let e := Rplus (Rmult 2 sv) (Rmult (Rmult 6 q) v) in Rle (Rmult (Rmult 2 (INR n)) e) l ->
  exists c0 : 'cV[R]_n, H^T *m W *m H *m c0 = H^T *m W *m d /\ Rle (wlen W (H *m (c - c0))) (Rmult (Rmult 4 (Rmult e (Rdiv (INR n) l))) (Rmult 2 Y)).
Proof.
  move=> L0 L1 S0 HA SN SR Dz HY Hs e HE. have [V0 [V1 V2]] := vN_bounds HN. rewrite -/v in V0 V1 V2.
  have [c0 Ec] := normal_solvable H d HW. exists c0. split; first exact: Ec.
  have QH : qf W (H *m (c - c0)) = qf (H^T *m W *m H) (c - c0) by rewrite /qf trmx_mul !mulmxA.
  rewrite /wlen QH.
  apply: (@ls_core_size _ _ W H d (wnormal_f dot H W) (wrhs_f dot H W d) c0 c sv (Rmult (Rmult 6 q) v) l (Rmult 2 Y) HW L0 L1 HA S0) => //.
  - apply: Rmult_le_pos; lra.
  - move=> i j. have := proj1 (near_wnormal Hd HN Hm H W i j). have := SN i j. have : Rle 0 (Rmult 6 v) by lra.
    move: (size_mul _ _ i j) (Rmult (sqrt _) _) => a b. rewrite -/v => P A B. apply: Rle_trans B _. have := Rmult_le_compat_l _ _ _ P A. lra.
  - move=> i. have := proj1 (near_wrhs Hd HN Hm H d W i 0). have := size_mono (size_mul H^T W) i Dz. have := SR i. have P : Rle 0 (Rmult 6 v) by lra.
    move: (size_mul _ z i 0) (size_mul _ d i 0) (sqrt _) => a b b'. rewrite -/v => A A2 B. apply: Rle_trans B _.
    have A3 : Rle b (Rmult 2 (Rmult q (Rmult b' Y))) by lra. have := Rmult_le_compat_l _ _ _ P A3. lra.
Qed.

Variables (hF : 'cV[R]_n -> 'cV[R]_m) (HF : 'cV[R]_n -> 'M[R]_(m, n)) (y hs : 'cV[R]_m) (xs : 'cV[R]_n) (s l t0 t1 g0 g1 Y X rho sv : R).
Hypothesis T : tame_w W q hF HF y hs xs s l t0 t1 g0 g1 Y rho.
Hypothesis HS : solves_w r dot solve W hF HF y xs rho sv.
Hypothesis s0 : Rlt 0 s.
Hypothesis L0 : Rlt 0 l.
Hypothesis L1 : Rle l 1.
Hypothesis sv0 : Rle 0 sv.
Hypothesis P0 : Rle 0 t0 /\ Rle 0 t1 /\ Rle 0 g0 /\ Rle 0 g1.
Hypothesis Y0 : Rle 0 Y.
Hypothesis HX : Rle (sqrt tiny64) X.
Hypothesis Xs : Rle (len xs) X.
Let e := Rplus (Rmult 2 sv) (Rmult (Rmult 6 q) v).
Hypothesis He : Rle (Rmult (Rmult 2 (INR n)) e) l.
Let k := rate s t1 g1.
Let t := noise s t0 g0 (Rmult e (Rdiv (INR n) l)) Y X.

Lemma wec_big : Rle (Rmult 6 u64) (Rmult e (Rdiv (INR n) l)).
Proof.
  have [V0 [V1 V2]] := vN_bounds HN. rewrite -/v in V0 V1 V2. have [N1 _] := n_range1 HN Hn n0.
  have C : Rle 1 (Rdiv (INR n) l) by apply: le_div => //; lra.
  have Q : Rle (Rmult 1 v) (Rmult q v) by apply: Rmult_le_compat_r; lra.
  have E : Rle (Rmult 6 u64) e by rewrite /e; lra. have [U _] := u64_bounds.
  have K : Rle 0 (Rmult 6 u64) by lra. have := Rmult_le_compat _ _ _ _ K Rle_0_1 E C. lra.
Qed.
Lemma wstep_f_ok (x : 'cV[R]_n) : Rle (len (x - xs)) rho ->
  exists x', wnls_step_f r dot solve hF HF y W x = Ret x' /\ Rle (len (x' - xs)) (Rplus (Rmult k (len (x - xs))) t).
Proof.
  move=> B. have [[HS1 [HA HT]] [SN SR] HE HG HYx] := T B. have [c [Ec Hc]] := HS B. rewrite /wnls_step_f Ec /=. eexists; split; first reflexivity.
  have [N1 N2] := n_range1 HN Hn n0. have [U0 U1] := u64_bounds. have [[R0 R1] R2] := tiny_root. have [p1 [p2 [p3 p4]]] := P0.
  set d := map_mx r (y - hF x) in Ec Hc. set dl := d - (y - hF x). set z := map_mx Rabs (y - hF x) + const_mx tiny64 in SR HYx.
  have RD i : Rle (Rabs (dl i 0)) (Rmult u64 (z i 0)).
  { rewrite /dl /d /z. have := Hr ((y - hF x : 'cV[R]_m) i 0). rewrite eta_tiny -Rmult_plus_distr_l. move: (y - hF x) => a. by rewrite !mxE. }
  have Dl : Rle (wlen W dl) (Rmult (Rmult 2 u64) Y).
  { have iu : Rlt 0 (/ u64) by exact: Rinv_0_lt_compat.
    have -> : dl = u64 *: (/ u64 *: dl).
    { apply/matrixP => i j. rewrite !mxE. toR. eqR. field. lra. }
    rewrite wlen_scale; last lra. have : Rle (wlen W (/ u64 *: dl)) Y.
    { apply: HYx => i. have -> : (/ u64 *: dl) i 0 = Rmult (/ u64) (dl i 0) by rewrite mxE.
      rewrite Rabs_mult (Rabs_pos_eq (/ u64)); last lra.
      have := Rmult_le_compat_l _ _ _ (Rlt_le _ _ iu) (RD i). by rewrite -Rmult_assoc Rinv_l ?Rmult_1_l //; lra. }
    move=> K. have := Rmult_le_compat_l _ _ _ (Rlt_le _ _ U0) K. have := Rmult_le_pos _ _ (Rlt_le _ _ U0) Y0. lra. }
  have Z0 i : Rle (Rabs ((y - hF x : 'cV[R]_m) i 0)) (z i 0).
  { rewrite /z. move: (y - hF x) => a. have -> : (map_mx Rabs a + const_mx tiny64 : 'cV[R]_m) i 0 = Rplus (Rabs (a i 0)) tiny64 by rewrite !mxE. have := Rplus_le_compat_l (Rabs (a i 0)) _ _ (Rlt_le _ _ tiny_pos). by rewrite Rplus_0_r. }
  have Dz i : Rle (Rabs (d i 0)) (Rmult 2 (z i 0)).
  { have E : d i 0 = Rplus (dl i 0) ((y - hF x : 'cV[R]_m) i 0).
    { have {1}-> : d = dl + (y - hF x) by rewrite /dl subrK. by rewrite [LHS]mxE. }
    rewrite E. apply: Rle_trans (Rabs_triang _ _) _. have := RD i. have := Z0 i. have zi := Rle_trans _ _ _ (Rabs_pos _) (Z0 i).
    have := Rmult_le_compat_r _ _ _ zi U1. lra. }
  have Dd : Rle (wlen W d) (Rmult 2 Y).
  { have -> : d = dl + (y - hF x) by rewrite /dl subrK. apply: Rle_trans (wlen_add HW _ _) _. have := HYx _ Z0.
    have : Rle (Rmult (Rmult 2 u64) Y) Y by have := Rmult_le_compat_r Y (Rmult 2 u64) 1 Y0 ltac:(lra); lra. lra. }
  have [c0 [Ec0 Hc0]] := wsolve_part L0 L1 sv0 HA SN SR Dz Dd Hc He.
  have E1 : (HF x)^T *m W *m HF x *m c0 = (HF x)^T *m W *m (y - hF x + dl) by rewrite Ec0 /dl addrC subrK.
  have E2 : Rle (wlen W (hs - (hF x + HF x *m (xs - x)) + dl)) (Rplus (Rplus t0 (Rmult t1 (len (x - xs)))) (wlen W dl)).
  { apply: Rle_trans (wlen_add HW _ _) _. lra. }
  have d0 := len_ge0 (x - xs). have q2 := Rmult_le_pos _ _ p2 d0. have q3 := Rmult_le_pos _ _ p4 d0. have dl0 := wlen_ge0 W dl.
  have E0 : Rle 0 (Rplus (Rplus t0 (Rmult t1 (len (x - xs)))) (wlen W dl)) by lra.
  have G0 : Rle 0 (Rplus g0 (Rmult g1 (len (x - xs)))) by lra.
  have A1 := wexact_part HW s0 E0 G0 HS1 E1 E2 HG.
  have A2 : Rle (len (x + c - xs)) (Rplus (len (x + c0 - xs)) (len (c - c0))).
  { have -> : x + c - xs = (x + c0 - xs) + (c - c0) by mx_abel. exact: len_add. }
  have A3 : Rle (len (x + c)) (Rplus (len (x + c - xs)) (len xs)).
  { have {1}-> : x + c = (x + c - xs) + xs by mx_abel. exact: len_add. }
  have A4 : Rle (len (map_mx r (x + c) - xs)) (Rplus (len (x + c - xs)) (Rplus (Rmult u64 (len (x + c))) (Rmult eta64 (INR n)))).
  { have -> : map_mx r (x + c) - xs = (x + c - xs) + (map_mx r (x + c) - (x + c)) by mx_abel.
    apply: Rle_trans (len_add _ _) _. apply: Rplus_le_compat_l. exact: round_len. }
  have [_ EX] := eta_many (conj (Rle_trans _ _ _ Rle_0_1 N1) N2) HX.
  have X0 : Rle 0 X by lra.
  have UX := Rmult_le_pos _ _ (Rlt_le _ _ U0) X0.
  have R : Rle (len (map_mx r (x + c) - xs)) (Rplus (Rminus (Rplus (Rmult k (len (x - xs))) t) (Rmult (Rmult 2 u64) X)) (Rmult (Rmult 2 u64) X)); last by lra.
  apply: (@step_f_scal u64 s t0 t1 g0 g1 (len (x - xs)) (wlen W dl) _ Y X (len (x + c - xs)) (len (c - c0)) (len xs) (Rmult eta64 (INR n))) => //; try lra.
  - exact: wec_big.
  - exact: Rle_trans (HS1 _) Hc0.
  - exact: len_ge0.
  - apply: Rle_trans A4 _. have := Rmult_le_compat_l _ _ _ (Rlt_le _ _ U0) A3. lra.
Qed.
Hypothesis k1 : Rlt k 1.
Hypothesis ball : Rle (Rplus (Rmult k rho) t) rho.
Variable eps : R.
Lemma wk_pos : Rle 0 k.
Proof.
  have [p1 [p2 [p3 p4]]] := P0. rewrite /k /rate. apply: Rmult_le_pos; first lra. have i1 := Rinv_0_lt_compat _ s0.
  have i2 := Rinv_0_lt_compat _ (Rmult_lt_0_compat _ _ s0 s0). rewrite /Rdiv. apply: Rplus_le_le_0_compat; apply: Rmult_le_pos; lra.
Qed.
Lemma wt_pos : Rle 0 t.
Proof.
  have [p1 [p2 [p3 p4]]] := P0. have [U0 _] := u64_bounds. have [[R0 _] _] := tiny_root.
  have i1 := Rinv_0_lt_compat _ s0. have i2 := Rinv_0_lt_compat _ (Rmult_lt_0_compat _ _ s0 s0). rewrite /t /noise /Rdiv.
  have q2 : Rle 0 (Rmult t0 (/ s)) by apply: Rmult_le_pos; lra. have q3 : Rle 0 (Rmult g0 (/ (Rmult s s))) by apply: Rmult_le_pos; lra.
  have q4 : Rle 0 (Rmult (Rmult (Rmult 9 (Rmult e (Rdiv (INR n) l))) Y) (/ s)).
  { apply: Rmult_le_pos; last lra. apply: Rmult_le_pos; last lra. have := wec_big. lra. }
  have q5 : Rle 0 (Rmult (Rmult 2 u64) X) by apply: Rmult_le_pos; lra. rewrite /Rdiv in q4. lra.
Qed.
Lemma wnls_f_converges j fuel (H : 'M[R]_(m, n)) (x x1 : 'cV[R]_n) : (j < fuel)%N -> Rlt eps (norm_f r dot (map_mx r (x1 - x))) ->
  Rle (len (x - xs)) rho ->
  Rle (Rplus (Rmult (Rdiv 101 100) (Rplus (Rmult (Rmult (Rplus 1 k) (pow k j)) (len (x - xs))) (Rmult 2 (Rdiv t (Rminus 1 k))))) (sqrt tiny64)) eps ->
  exists H' x' J', weighted_nls_f r dot solve hF HF y W eps fuel H x x1 = Ret (H', x', x', J') /\
  Rle (len (x' - xs)) (Rdiv (Rplus (Rmult k (Rplus (Rmult (Rdiv 101 100) eps) (sqrt tiny64))) t) (Rminus 1 k)).
Proof.
  move=> Hj E B C.
  have [H' [x' [EL EB]]] := @loop_ends r dot N m n Hr Hd HN Hn n0 (wnls_step_f r dot solve hF HF y W) HF xs k t rho eps wk_pos k1 wt_pos ball wstep_f_ok j fuel H x x1 Hj E B C.
  exists H', x'. rewrite /weighted_nls_f EL /=. by eexists.
Qed.
End Main.

(** ** Eigen's LDLT, pivots in any order *)
Lemma ldlt_solves_w (r rs : R -> R) (dot : dot_fun) msub (N m n : nat) (piv : 'M[R]_n -> 'S_n) (W : 'M[R]_m) q (hF : 'cV[R]_n -> 'cV[R]_m) (HF : 'cV[R]_n -> 'M[R]_(m, n)) (y hs : 'cV[R]_m) (xs : 'cV[R]_n) s l t0 t1 g0 g1 Y rho :
  rel_ok rs -> dot_ok dot -> msub_ok msub -> Rle (INR N) 1000000 -> (n <= N)%N -> (m <= N)%N -> Rlt 0 l -> Rle l 1 -> psd W -> Rle 1 q ->
  tame_w W q hF HF y hs xs s l t0 t1 g0 g1 Y rho ->
  let sv := Rmult 9 (Rmult (INR n + 2) u64) in
  Rle (Rmult (Rmult 2 (INR n)) (Rplus (Rmult 2 sv) (Rmult (Rmult 6 q) (vN N)))) l ->
  solves_w r dot (fun A b => ldlt_mx (piv A) rs msub A b) W hF HF y xs rho sv.
Proof.
  move=> Hr Hd Hs HN Hn Hm L0 L1 HW q1 T sv HE x B A b. have [[_ [HA TA]] [SN _] _ _ _] := T x B.
  have [V0 [V1 V2]] := vN_bounds HN.
  apply: (@ProofLdlt7.solves rs msub N n (piv A) Hr Hs HN Hn l L0 L1 ((HF x)^T *m W *m HF x) A (Rmult (Rmult 6 q) (vN N)) b (proj1 (psd_congrT (HF x) HW)) TA HA _ _ HE).
  - move=> i j. have := proj1 (near_wnormal Hd HN Hm (HF x) W i j). have := SN i j. have : Rle 0 (Rmult 6 (vN N)) by lra.
    rewrite -/A. move: (size_mul _ _ i j) (Rmult (sqrt _) _) => a b' P Q K. apply: Rle_trans K _. have := Rmult_le_compat_l _ _ _ P Q. lra.
  - apply: Rmult_le_pos; lra.
Qed.

(** ** Without rounding *)
Section Exact.
Let D : dot_fun := fun k a b => \sum_(i < k) a i * b i.
Lemma wloop_exact (ldlt : solver) m n (solve : 'M[R]_n -> 'cV[R]_n -> outcome 'cV[R]_n) p q (hF : 'cV[R]_n -> 'cV[R]_m) (HF : 'cV[R]_n -> 'M[R]_(m, n)) (y : 'cV[R]_m) (W : 'M[R]_m) eps :
  (forall A b, ldlt (DM A) (DV b) = (x <- solve A b ;; Ret (DV x))) -> predicts p hF -> linearizes q HF ->
  forall fuel (H : 'M[R]_(m, n)) (x x1 res : 'cV[R]_n) yx, 
  (s <- weighted_loop fuel ldlt p q (DV y) (DM W) eps (IT (DM H) (DV x) (DV x1) yx (DV res)) ;; Ret (s.1, (it_H s.2, it_x s.2, it_x1 s.2))) =
  (s <- nls_loop_f id D HF eps (wnls_step_f id D solve hF HF y W) fuel H x x1 res ;; Ret (true, (DM s.1.1, DV s.1.2, DV s.2))).
Proof.
  move=> HS Hp Hq. elim=> [|f IH] H x x1 res yx /=; rewrite normv_len norm_exact; case: Rlt_dec => //= _.
  rewrite Hp /= Hq /= /tr. eig. rewrite HS /wnls_step_f /wnormal_f /wrhs_f !mul_exact !map_id. case: (solve _ _) => //= c. rewrite !map_id. eig. exact: IH.
Qed.
Lemma exact_wnls (ldlt : solver) m n (solve : 'M[R]_n -> 'cV[R]_n -> outcome 'cV[R]_n) p q (hF : 'cV[R]_n -> 'cV[R]_m) (HF : 'cV[R]_n -> 'M[R]_(m, n)) (y : 'cV[R]_m) (W : 'M[R]_m) eps fuel (H : 'M[R]_(m, n)) (x x1 : 'cV[R]_n) J :
  (n <= m)%N -> (forall A b, ldlt (DM A) (DV b) = (x <- solve A b ;; Ret (DV x))) -> predicts p hF -> linearizes q HF ->
  WeightedNonlinearLeastSquares fuel ldlt p q (DV y) (DM H) (DV x) (DM W) eps (DV x1) J =
  (s <- weighted_nls_f id D solve hF HF y W eps fuel H x x1 ;; Ret (true, (DM s.1.1.1, DV s.1.1.2, DV s.1.2, s.2))).
Proof.
  move=> Hmn HS Hp Hq. rewrite /WeightedNonlinearLeastSquares !wrong_size_ok /= eqxx /= ltnNge Hmn /=. eig.
  have := @wloop_exact ldlt m n solve p q hF HF y W eps HS Hp Hq fuel H x x1 (x1 - x) (zerov 0). rewrite /weighted_nls_f map_id.
  case: (weighted_loop _ _ _ _ _ _ _ _) => [[b' s]| | | |] /=; case: (nls_loop_f _ _ _ _ _ _ _ _ _ _) => [[[H' x'] x1']| | | |] //=.
  move=> [-> -> -> ->] /=. by rewrite cost_ok /= cost_exact.
Qed.
End Exact.

(** ** Weights on the diagonal *)
Lemma tame_diag m n (W : 'M[R]_m) (hF : 'cV[R]_n -> 'cV[R]_m) (HF : 'cV[R]_n -> 'M[R]_(m, n)) (y hs : 'cV[R]_m) (xs : 'cV[R]_n) s l t0 t1 g0 g1 Y rho :
  (forall i j, i != j -> W i j = 0) -> (forall i, Rle 0 (W i i)) -> Rle 0 Y ->
  tame_d W hF HF y hs xs s l t0 t1 g0 g1 Y rho -> tame_w W 2 hF HF y hs xs s l t0 t1 g0 g1 Y rho.
Proof.
  move=> Wo W0 Y0 T x B. have [[HS HA] [S1 [S2 S3]] HE HG HY] := T x B. move=> A z. rewrite -/A -/z in HA S1 S2 S3 HY *.
  have zp k : Rlt 0 (z k 0).
  { rewrite /z mxE [const_mx _ _ _]mxE [map_mx _ _ _ _]mxE. apply: (Rplus_le_lt_0_compat (Rabs _) tiny64); [exact: Rabs_pos|exact: tiny_pos]. }
  have zs : Rle 0 (\sum_k z k 0) by apply: sum_ge0 => k; exact: Rlt_le (zp k).
  have tz : Rlt 0 (Rmult tiny64 (Rplus 1 (\sum_k z k 0))).
  { apply: Rmult_lt_0_compat; first exact: tiny_pos. move: (\sum_k _) zs => a. lra. }
  split=> //.
  - split=> //. split=> // i. exact: Rlt_le_trans tz (S2 i).
  - split; first exact: diag_size_normal.
    move=> i. have := abs_dot (col i (scaled W (HF x))) (scaled W z). rewrite (diag_size (HF x) Wo W0).
    have -> : \sum_i0 Rmult (Rabs (col i (scaled W (HF x)) i0 0)) (Rabs (scaled W z i0 0)) = \sum_k Rmult (Rabs (Rmult (sqrt (W k k)) (HF x k i))) (Rabs (Rmult (sqrt (W k k)) (z k 0))).
    { apply: eq_bigr => k _. by rewrite !mxE. }
    have -> : \sum_k Rabs (z k 0) = \sum_k z k 0 by apply: eq_bigr => k _; rewrite Rabs_pos_eq //; exact: Rlt_le (zp k).
    rewrite -(diag_entry (HF x) Wo W0) -/A -(diag_qf z Wo W0) -/(wlen W z).
    have := tiny_mean (Rlt_le _ _ tz) (S2 i) S3. rewrite sqrt_square //.
    move: (\sum_k Rmult (Rabs _) _) (Rmult tiny64 _) (sqrt_pos (A i i)) => a b s0 K1 K2.
    have := Rmult_le_compat_l _ _ _ s0 HY. move: (sqrt (A i i)) (wlen W z) K1 K2 => c d K1 K2 K3. lra.
  - move=> v Hv. apply: Rle_trans HY. rewrite /wlen. apply: sqrt_le_1_alt. rewrite (diag_qf v Wo W0) (diag_qf z Wo W0). apply: sum_le => k.
    have SE (w : 'cV[R]_m) : scaled W w k 0 = Rmult (sqrt (W k k)) (w k 0) by rewrite mxE.
    rewrite !SE. toR.
    have K : Rle (Rmult (v k 0) (v k 0)) (Rmult (z k 0) (z k 0)).
    { have -> : Rmult (v k 0) (v k 0) = Rmult (Rabs (v k 0)) (Rabs (v k 0)) by rewrite -Rabs_mult Rabs_right //; exact: Rle_ge (Rle_0_sqr _).
      apply: Rmult_le_compat; try exact: Rabs_pos; exact: Hv. }
    have M (a b : R) : Rmult (Rmult a b) (Rmult a b) = Rmult (Rmult a a) (Rmult b b) by ring.
    rewrite !M (sqrt_sqrt _ (W0 k)). exact: (Rmult_le_compat_l _ _ _ (W0 k) K).
Qed.
