(** Proofs about the filters, part 7: existence and uniqueness of the steady
    covariance. *)
From Coq Require Import Reals Lra.
From mathcomp Require Import all_ssreflect all_algebra.
From Verif Require Import Base BaseMx ModelEigen ModelKalman SpecKalman SpecFilter SpecSteady ProofMx ProofKalman ProofKalman2 ProofKalman3 ProofKalman4 ProofKalman5 ProofSteady.
Set Implicit Arguments.
Unset Strict Implicit.
Unset Printing Implicit Defensive.
Import GRing.Theory.
Local Open Scope ring_scope.
Local Open Scope outcome_scope.

(** ** Plain limits *)
Definition ek (d : R) (k : nat) : R := Rinv (Rmult d (pow (Rplus 1 d) k)).
Lemma ek_pos d k : Rlt 0 d -> Rlt 0 (ek d k).
Proof. move=> D. apply: Rinv_0_lt_compat. apply: Rmult_lt_0_compat => //. apply: pow_lt. lra. Qed.
Lemma ek_small d : Rlt 0 d -> forall eps, Rlt 0 eps -> exists N, forall k, (N <= k)%N -> Rlt (ek d k) eps.
Proof.
  move=> D eps HE. have X : Rlt (Rabs (Rinv (Rplus 1 d))) 1.
  { rewrite Rabs_pos_eq; last by left; apply: Rinv_0_lt_compat; lra. have := Rinv_lt_contravar 1 (Rplus 1 d). rewrite Rinv_1. move=> Y. apply: Y; lra. }
  have [N HN] := pow_lt_1_zero _ X (Rmult eps d) (Rmult_lt_0_compat _ _ HE D). exists N => k /leP Hk.
  have := HN k Hk. have P := pow_lt (Rplus 1 d) k. have Pk : Rlt 0 (pow (Rplus 1 d) k) by apply: P; lra.
  rewrite -Rinv_pow; last lra. rewrite Rabs_pos_eq; last by left; apply: Rinv_0_lt_compat. rewrite /ek => Y.
  rewrite Rinv_mult_distr; [|lra|lra]. have := Rmult_lt_compat_l _ _ _ (Rinv_0_lt_compat _ D) Y.
  have -> : Rmult (Rinv d) (Rmult eps d) = eps; last by []. field. lra.
Qed.
Lemma ratio_cauchy (u : nat -> R) (d B : R) : Rlt 0 d -> Rle 0 B -> (forall k n m, (k < n)%N -> (k < m)%N -> Rle (u n) (Rmult (Rplus 1 (ek d k)) (u m))) ->
  (forall n, (0 < n)%N -> Rle (u n) B) -> Cauchy_crit u.
Proof.
  move=> D HB U UB eps HE. have HB1 : Rlt 0 (Rplus B 1) by lra.
  have [N HN] := ek_small D (Rdiv_lt_0_compat _ _ HE HB1). have := HN N (leqnn _). have EP := ek_pos N D.
  move: (ek d N) EP (U N) => e EP UN EN. exists N.+1 => n m /leP Hn /leP Hm. rewrite /R_dist.
  have E1 : Rlt (Rmult e (Rplus B 1)) eps.
  { have := Rmult_lt_compat_r _ _ _ HB1 EN. have -> : Rmult (Rdiv eps (Rplus B 1)) (Rplus B 1) = eps; last by []. field. lra. }
  have A n1 m1 : (N < n1)%N -> (N < m1)%N -> Rlt (Rminus (u n1) (u m1)) eps.
  { move=> H1 H2. have := UN n1 m1 H1 H2. have B2 := UB m1 (leq_ltn_trans (leq0n _) H2). have := Rmult_le_compat_l _ _ _ (Rlt_le _ _ EP) B2. lra. }
  have := A n m Hn Hm. have := A m n Hm Hn. move=> *. apply: Rabs_def1; lra.
Qed.
Lemma cv_le (u : nat -> R) (a c l : R) N : Rle 0 c -> Un_cv u l -> (forall n, (N <= n)%N -> Rle a (Rmult c (u n))) -> Rle a (Rmult c l).
Proof.
  move=> C U H. case: (Rle_lt_dec a (Rmult c l)) => // L. have E : Rlt 0 (Rdiv (Rminus a (Rmult c l)) (Rplus c 1)) by apply: Rdiv_lt_0_compat; lra.
  have [M HM] := U _ E. have := HM (maxn N M) ltac:(apply/leP; exact: leq_maxr). have := H (maxn N M) (leq_maxl _ _).
  rewrite /R_dist. move: (u _) => w H1 /Rabs_def2 [H2 H3].
  have C1 : Rlt 0 (Rplus c 1) by lra. have := Rmult_lt_compat_l _ _ _ C1 H2.
  have -> : Rmult (Rplus c 1) (Rdiv (Rminus a (Rmult c l)) (Rplus c 1)) = Rminus a (Rmult c l) by field; lra.
  move=> H4. have [H5|H5] := Rle_lt_dec w l.
  - have := Rmult_le_compat_l _ _ _ C H5. lra.
  - lra.
Qed.
Lemma cv_ge (u : nat -> R) (a c l : R) N : Rle 0 c -> Un_cv u l -> (forall n, (N <= n)%N -> Rle (u n) (Rmult c a)) -> Rle l (Rmult c a).
Proof.
  move=> C U H. have V : Un_cv (fun n => Ropp (u n)) (Ropp l) by exact: CV_opp.
  have := @cv_le _ (Ropp (Rmult c a)) 1 _ N Rle_0_1 V. move=> X. have := X ltac:(move=> n Hn; have := H n Hn; lra). lra.
Qed.
Lemma le_limit (a b : R) (e : nat -> R) : Rle 0 b -> (forall k, Rle 0 (e k)) -> (forall eps, Rlt 0 eps -> exists N, forall k, (N <= k)%N -> Rlt (e k) eps) ->
  (forall k, Rle a (Rmult (Rmult (Rplus 1 (e k)) (Rplus 1 (e k.+1))) b)) -> Rle a b.
Proof.
  move=> B P E H. case: (Rle_lt_dec a b) => // L.
  set t := Rdiv (Rminus a b) (Rmult 4 (Rplus b 1)). have T : Rlt 0 t by apply: Rdiv_lt_0_compat; lra.
  have TB : Rmult t (Rplus b 1) = Rdiv (Rminus a b) 4 by rewrite /t; field; lra.
  have [N HN] := E (Rmin t 1) ltac:(by apply: Rmin_glb_lt; lra).
  have := HN N (leqnn _). have := HN N.+1 (leqnSn _). have := H N. have := P N. have := P N.+1.
  have := Rmin_l t 1. have := Rmin_r t 1. move: (Rmin t 1) (e N) (e N.+1) => r f g *.
  have H1 : Rle (Rmult f g) g by rewrite -{2}(Rmult_1_l g); apply: Rmult_le_compat_r; lra.
  have H2 : Rle (Rmult (Rmult (Rplus 1 f) (Rplus 1 g)) b) (Rmult (Rplus 1 (Rmult 3 t)) b).
  { apply: Rmult_le_compat_r => //. have -> : Rmult (Rplus 1 f) (Rplus 1 g) = Rplus (Rplus 1 f) (Rplus g (Rmult f g)) by ring. lra. }
  have : Rle (Rmult t b) (Rmult t (Rplus b 1)) by apply: Rmult_le_compat_l; lra. lra.
Qed.

(** ** Quadratic forms as sums *)
Lemma qf_sum2 n (A : 'M[R]_n) x : qf A x = \sum_j \sum_i Rmult (A i j) (Rmult (x i 0) (x j 0)).
Proof.
  rewrite /qf mxE. apply: eq_bigr => j _. rewrite mxE big_distrl /=. apply: eq_bigr => i _. rewrite !mxE. toR. ring.
Qed.
Lemma sum_cv (I : finType) (u : nat -> I -> R) (l : I -> R) : (forall i, Un_cv (fun k => u k i) (l i)) -> Un_cv (fun k => \sum_i u k i) (\sum_i l i).
Proof.
  move=> H. have G (s : seq I) : Un_cv (fun k => \sum_(i <- s) u k i) (\sum_(i <- s) l i).
  { elim: s => [|i s IH].
    - rewrite big_nil => eps HE. exists 0%N => k _. rewrite big_nil /R_dist. toR. rewrite Rminus_0_r Rabs_R0. exact: HE.
    - rewrite big_cons. have := CV_plus _ _ _ _ (H i) IH. move=> C eps HE. have [N HN] := C eps HE. exists N => k Hk. rewrite big_cons. exact: HN. }
  exact: G.
Qed.
Lemma qf_cv n (A : nat -> 'M[R]_n) (L : 'M[R]_n) : (forall i j, Un_cv (fun k => A k i j) (L i j)) -> forall x, Un_cv (fun k => qf (A k) x) (qf L x).
Proof.
  move=> H x. rewrite qf_sum2. have C : Un_cv (fun k => \sum_j \sum_i Rmult (A k i j) (Rmult (x i 0) (x j 0))) (\sum_j \sum_i Rmult (L i j) (Rmult (x i 0) (x j 0))).
  { apply: sum_cv => j. apply: sum_cv => i. apply: CV_mult; first exact: H. move=> eps HE. exists 0%N => k _. rewrite R_dist_eq. exact: HE. }
  move=> eps HE. have [N HN] := C eps HE. exists N => k Hk. rewrite qf_sum2. exact: HN.
Qed.
Definition unit_v n (i : 'I_n) : 'cV[R]_n := delta_mx i 0.
Lemma entry_qf n (A : 'M[R]_n) i j : symmetric A ->
  A i j = Rdiv (Rminus (Rminus (qf A (unit_v i + unit_v j)) (qf A (unit_v i))) (qf A (unit_v j))) 2.
Proof.
  move=> S. have E : ((unit_v i)^T *m A *m unit_v j) 0 0 = A i j by rewrite /unit_v trmx_delta -rowE -colE !mxE.
  rewrite (qf_add _ _ S) E mulr2n.
  have G (q r s : R) : s = Rdiv (Rminus (Rminus (Rplus (Rplus q r) (Rplus s s)) q) r) 2 by field. exact: G.
Qed.
Lemma loewner_eq n (A B : 'M[R]_n) : symmetric A -> symmetric B -> loewner A B -> loewner B A -> A = B.
Proof.
  move=> SA SB L1 L2. apply/matrixP => i j. rewrite (entry_qf i j SA) (entry_qf i j SB).
  have Q v : qf A v = qf B v by apply: Rle_antisym. by rewrite !Q.
Qed.

(** ** Any covariance is at most a multiple of a positive definite one *)
Definition msize n (A : 'M[R]_n) : R := \sum_j \sum_i Rabs (A i j).
Lemma msize_ge0 n (A : 'M[R]_n) : Rle 0 (msize A).
Proof. apply: le0_sum => j. apply: le0_sum => i. exact: Rabs_pos. Qed.
Lemma sum_le (I : finType) (f g : I -> R) : (forall i, Rle (f i) (g i)) -> Rle (\sum_i f i) (\sum_i g i).
Proof.
  move=> H; elim/big_ind2: _ => [|x1 x2 y1 y2 Hx Hy|i _] //; first exact: Rle_refl. exact: Rplus_le_compat.
Qed.
Lemma sq_le_qf1 n (x : 'cV[R]_n) i : Rle (Rmult (x i 0) (x i 0)) (qf 1%:M x).
Proof.
  rewrite qf_1 (bigD1 i) //=. have X : Rle 0 (\sum_(j | j != i) x j 0 * x j 0).
  { elim/big_ind: _ => [|a b Ha Hb|j _]; [exact: Rle_refl|exact: Rplus_le_le_0_compat|exact: Rle_0_sqr]. }
  move: (\sum_(j | j != i) _) X => s X. toR. lra.
Qed.
Lemma qf_le_size n (A : 'M[R]_n) x : Rle (qf A x) (Rmult (msize A) (qf 1%:M x)).
Proof.
  rewrite qf_sum2 /msize. have -> : Rmult (\sum_j \sum_i Rabs (A i j)) (qf 1%:M x) = \sum_j \sum_i Rmult (Rabs (A i j)) (qf 1%:M x).
  { rewrite -mulR big_distrl /=. apply: eq_bigr => j _. by rewrite big_distrl. }
  apply: sum_le => j. apply: sum_le => i. have X : Rle (Rabs (Rmult (x i 0) (x j 0))) (qf 1%:M x).
  { have := sq_le_qf1 x i. have := sq_le_qf1 x j. move: (x i 0) (x j 0) (qf _ _) => a b q *.
    have := Rle_0_sqr (Rplus a b). have := Rle_0_sqr (Rminus a b). rewrite /Rsqr => *. apply: Rabs_le. split; lra. }
  apply: Rle_trans (Rle_abs _) _. rewrite Rabs_mult. apply: Rmult_le_compat_l => //. exact: Rabs_pos.
Qed.
Lemma pd_ge_size n (Q : 'M[R]_n) x : pd Q -> Rle (qf 1%:M x) (Rmult (msize (invmx Q)) (qf Q x)).
Proof.
  move=> HQ. have U := pd_unit HQ. have X := cauchy x (invmx Q *m x) (pd_psd HQ).
  have E1 : (x^T *m Q *m (invmx Q *m x)) 0 0 = qf 1%:M x by rewrite /qf mulmx1 mulmxA -(mulmxA _ Q) mulmxV // mulmx1.
  have E2 : qf Q (invmx Q *m x) = qf (invmx Q) x.
  { rewrite -{1}(trmxK (invmx Q)) -qf_congr trmxK (inv_sym (proj1 HQ)) mulVmx // mul1mx. by []. }
  rewrite E1 E2 in X. have Y := qf_le_size (invmx Q) x. have Z := proj2 (pd_psd HQ) x. have W := qf_1_ge0 x.
  have SZ := msize_ge0 (invmx Q). move: (qf 1%:M x) (qf Q x) (msize _) (qf (invmx Q) x) X Y Z W SZ => q p s t X Y Z [W|<-] SZ; last exact: Rmult_le_pos.
  have T := Rmult_le_compat_r _ _ _ Z Y. apply: (Rmult_le_reg_l q) => //. apply: Rle_trans X _. apply: Rle_trans T _. right. ring.
Qed.
Lemma dominate n (M Q : 'M[R]_n) : pd Q -> exists d, Rlt 0 d /\ loewner (d *: M) Q.
Proof.
  move=> HQ. set a := msize M. set b := msize (invmx Q). have A : Rle 0 a by exact: msize_ge0. have B : Rle 0 b by exact: msize_ge0.
  have AB := Rmult_le_pos _ _ A B. have D : Rlt 0 (Rinv (Rplus (Rmult a b) 1)) by apply: Rinv_0_lt_compat; lra.
  exists (Rinv (Rplus (Rmult a b) 1)). split=> // v. rewrite qfZ. have X := qf_le_size M v. have Y := pd_ge_size v HQ. have Z := proj2 (pd_psd HQ) v.
  have W := Rmult_le_compat_l _ _ _ A Y. rewrite -/a -/b in X Y W. apply: (Rmult_le_reg_l (Rplus (Rmult a b) 1)); first lra.
  rewrite -Rmult_assoc Rinv_r; last lra. rewrite Rmult_1_l. apply: Rle_trans X _. apply: Rle_trans W _. rewrite -Rmult_assoc. lra.
Qed.

(** ** The steady covariance *)
Section Steady.
Variables (n m : nat) (H : 'M[R]_(m, n)) (Rk : 'M[R]_m) (Phi Q : 'M[R]_n) (d : R).
Hypothesis HR : pd Rk.
Hypothesis HQ : psd Q.
Hypothesis D : Rlt 0 d.
Hypothesis FC : forall z : 'cV[R]_m, full_cycle d (Cycle z H Rk Phi Q).
Let D0 : Rle 0 d := Rlt_le _ _ D.

(** The covariance after one cycle. *)
Definition Fc (P : 'M[R]_n) : 'M[R]_n := Phi *m joseph P H Rk (gain P H Rk) *m Phi^T + Q.
Let all_c zs : all_full d (constant H Rk Phi Q zs).
Proof. elim: zs => [|z zs IH] c //= [<-|Hc]; [exact: FC|exact: IH]. Qed.
Lemma Fc_run (z : 'cV[R]_m) (x : 'cV[R]_n) (P : 'M[R]_n) : psd P -> exists x' : 'cV[R]_n, run (cycles (constant H Rk Phi Q [:: z])) (DV x) (DM P) = Ret (true, (DV x', DM (Fc P))).
Proof.
  move=> HP. rewrite /cycles /=. have [y [S E]] := update_finite x x z P H HP HR. rewrite E /=. have [_ _ ES] := update_inv E.
  rewrite predict_ok /= /Fc -ES. by eexists.
Qed.
Lemma Fc_psd P : psd P -> psd (Fc P).
Proof.
  move=> HP. have [x E] := Fc_run 0 0 HP. have [y [S [E2 HS]]] := run_valid 0 (cycles_valid (@all_c [:: 0])) HP.
  move: E2. rewrite E => /Ret_inj [_ _ ->]. exact: HS.
Qed.
Lemma iter_psd k P : psd P -> psd (iter k Fc P).
Proof. elim: k P => [|k IH] P HP //=. apply: Fc_psd. exact: IH. Qed.
Lemma iter_run zs : forall (x : 'cV[R]_n) (P : 'M[R]_n), psd P -> exists x' : 'cV[R]_n, run (cycles (constant H Rk Phi Q zs)) (DV x) (DM P) = Ret (true, (DV x', DM (iter (size zs) Fc P))).
Proof.
  elim: zs => [|z zs IH] x P HP; first by exists x.
  have -> : cycles (constant H Rk Phi Q (z :: zs)) = cycles (constant H Rk Phi Q [:: z]) ++ cycles (constant H Rk Phi Q zs) by [].
  rewrite (run_cat _ _ (cycles_valid (@all_c [:: z])) HP). have [y E] := Fc_run z x HP. rewrite E /=.
  have [y2 E2] := IH y (Fc P) (Fc_psd HP). exists y2. by rewrite E2 -iterSr.
Qed.
Lemma iter_close k P1 P2 : psd P1 -> psd P2 -> loewner (iter k.+1 Fc P1) (Rplus 1 (ek d k) *: iter k.+1 Fc P2).
Proof.
  move=> H1 H2. have [x1 E1] := iter_run (nseq k.+1 0) 0 H1. have [x2 E2] := iter_run (nseq k.+1 0) 0 H2.
  have := cycles_close D (@all_c (nseq k.+1 0)) H1 H2 E1 E2. by rewrite size_map !size_nseq.
Qed.
Lemma iter_mono P1 P2 a : Rle 0 a -> psd P1 -> psd P2 -> loewner P1 (Rplus 1 a *: P2) -> loewner (Fc P1) (Rplus 1 a *: Fc P2).
Proof.
  move=> A H1 H2 L. have [x1 E1] := Fc_run 0 0 H1. have [x2 E2] := Fc_run 0 0 H2.
  have X := run_ratio D0 A (cycles_valid (@all_c [:: 0])) H1 H2 (cycles_excited D0 (@all_c _) H2) L E1 E2.
  apply: loewner_trans X _. move=> v. rewrite !qfZ. apply: Rmult_le_compat_r; first exact: (proj2 (Fc_psd H2) v).
  rewrite cycles_predictions /= Rmult_1_r. apply: Rplus_le_compat_l. apply: (Rmult_le_reg_r (Rplus 1 d)); first by have := D; lra.
  have -> : Rmult (Rdiv a (Rplus 1 d)) (Rplus 1 d) = a by field; have := D; lra. have := Rmult_le_pos _ _ A D0. lra.
Qed.
Lemma iter_bounds k P : psd P -> loewner Q (iter k.+1 Fc P) /\ loewner (iter k.+1 Fc P) (Rplus 1 (Rinv d) *: Q).
Proof.
  move=> HP. have HP' := iter_psd k HP. have [x E] := Fc_run 0 0 HP'. exact: (cycle_bounds D (FC 0) HP' E).
Qed.

Let u (v : 'cV[R]_n) (k : nat) : R := qf (iter k Fc 0) v.
Let u_cauchy v : Cauchy_crit (u v).
Proof.
  apply: (ratio_cauchy D (B := Rmult (Rplus 1 (Rinv d)) (qf Q v))).
  - apply: Rmult_le_pos; [have := Rinv_0_lt_compat _ D; lra|exact: (proj2 HQ v)].
  - move=> k i j Hi Hj. rewrite /u -(subnKC Hi) -(subnKC Hj) !iterD. have := iter_close k (iter_psd (i - k.+1) (psd0 n)) (iter_psd (j - k.+1) (psd0 n)) v.
    by rewrite qfZ.
  - case=> // k _. have := proj2 (iter_bounds k (psd0 n)) v. by rewrite qfZ.
Qed.
Let lim v : R := proj1_sig (R_complete _ (u_cauchy v)).
Let lim_cv v : Un_cv (u v) (lim v).
Proof. exact: (proj2_sig (R_complete _ (u_cauchy v))). Qed.
Definition S_inf : 'M[R]_n := \matrix_(i, j) Rdiv (Rminus (Rminus (lim (unit_v i + unit_v j)) (lim (unit_v i))) (lim (unit_v j))) 2.
Lemma S_cv v : Un_cv (fun k => qf (iter k Fc 0) v) (qf S_inf v).
Proof.
  apply: qf_cv => i j. rewrite mxE. have C : Un_cv (fun k => Rdiv (Rminus (Rminus (u (unit_v i + unit_v j) k) (u (unit_v i) k)) (u (unit_v j) k)) 2)
    (Rdiv (Rminus (Rminus (lim (unit_v i + unit_v j)) (lim (unit_v i))) (lim (unit_v j))) 2).
  { apply: CV_mult; last by move=> eps HE; exists 0%N => k _; rewrite R_dist_eq; exact: HE.
    apply: CV_minus; last exact: lim_cv. apply: CV_minus; exact: lim_cv. }
  move=> eps HE. have [N HN] := C eps HE. exists N => k Hk. rewrite (entry_qf i j (proj1 (iter_psd k (psd0 n)))). exact: HN.
Qed.
Lemma S_sym : symmetric S_inf.
Proof. apply/matrixP => i j. rewrite !mxE addrC. congr (Rdiv _ 2). lra. Qed.
Lemma S_ge v : Rle (qf Q v) (qf S_inf v).
Proof.
  have := cv_le (a := qf Q v) (N := 1) Rle_0_1 (S_cv v). rewrite Rmult_1_l. apply. case=> // k _. rewrite Rmult_1_l. exact: (proj1 (iter_bounds k (psd0 n))).
Qed.
Lemma S_psd : psd S_inf.
Proof. split; first exact: S_sym. move=> v. exact: Rle_trans (proj2 HQ v) (S_ge v). Qed.
Lemma S_close k P : psd P -> close (ek d k) (iter k.+1 Fc P) S_inf.
Proof.
  move=> HP. have E0 := ek_pos k D. have E1 : Rle 0 (Rplus 1 (ek d k)) by lra. split=> v; rewrite qfZ.
  - apply: (cv_le (N := k.+1) E1 (S_cv v)) => i Hi. rewrite -(subnKC Hi) iterD. have := iter_close k HP (iter_psd (i - k.+1) (psd0 n)) v. by rewrite qfZ.
  - apply: (cv_ge (N := k.+1) E1 (S_cv v)) => i Hi. rewrite -(subnKC Hi) iterD. have := iter_close k (iter_psd (i - k.+1) (psd0 n)) HP v. by rewrite qfZ.
Qed.
Let small k : Rle 0 (ek d k). Proof. left. exact: ek_pos. Qed.
Lemma S_fixed : Fc S_inf = S_inf.
Proof.
  have HS := S_psd. apply: loewner_eq; [exact: (proj1 (Fc_psd HS))|exact: S_sym| |] => v.
  - apply: (le_limit (proj2 HS v) small (ek_small D)) => k. have [A1 A2] := S_close k (psd0 n).
    have B := iter_mono (small k) HS (iter_psd k.+1 (psd0 n)) A2 v. rewrite qfZ in B.
    have [C1 _] := S_close k.+1 (psd0 n). have := C1 v. rewrite qfZ -/(iter k.+2 Fc 0) => C. have E := small k.
    apply: Rle_trans B _. rewrite Rmult_assoc. apply: Rmult_le_compat_l; [lra|exact: C].
  - apply: (le_limit (proj2 (Fc_psd HS) v) small (ek_small D)) => k. have [A1 A2] := S_close k (psd0 n).
    have B := iter_mono (small k) (iter_psd k.+1 (psd0 n)) HS A1 v. rewrite qfZ in B.
    have [_ C2] := S_close k.+1 (psd0 n). have := C2 v. rewrite qfZ => C. have E := small k.+1.
    apply: Rle_trans C _. rewrite (Rmult_comm (Rplus 1 (ek d k))) Rmult_assoc. apply: Rmult_le_compat_l; [lra|exact: B].
Qed.
Lemma S_steady : steady H Rk Phi Q S_inf.
Proof. split; first exact: S_psd. move=> z x. have [x' E] := Fc_run z x S_psd. exists x'. by rewrite E S_fixed. Qed.
Lemma steady_fixed T : steady H Rk Phi Q T -> Fc T = T.
Proof. move=> [HT E]. have [x1 E1] := Fc_run 0 0 HT. have [x2] := E 0 0. by rewrite E1 => /Ret_inj [_ _ ->]. Qed.
Lemma S_unique T : steady H Rk Phi Q T -> T = S_inf.
Proof.
  move=> HT. have FT := steady_fixed HT. have PT := proj1 HT. have HS := S_psd.
  have IT k : iter k Fc T = T by elim: k => [|k IH] //=; rewrite IH.
  apply: loewner_eq; [exact: (proj1 PT)|exact: S_sym| |] => v.
  - apply: (le_limit (proj2 HS v) small (ek_small D)) => k. have [A _] := S_close k PT. have := A v. rewrite IT qfZ => B.
    apply: Rle_trans B _. apply: Rmult_le_compat_r; first exact: (proj2 HS v). have := small k. have := small k.+1 => E1 E2.
    have := Rmult_le_pos _ _ E2 E1. lra.
  - apply: (le_limit (proj2 PT v) small (ek_small D)) => k. have [_ A] := S_close k PT. have := A v. rewrite IT qfZ => B.
    apply: Rle_trans B _. apply: Rmult_le_compat_r; first exact: (proj2 PT v). have := small k. have := small k.+1 => E1 E2.
    have := Rmult_le_pos _ _ E2 E1. lra.
Qed.
End Steady.

Lemma steady_state n m (H : 'M[R]_(m, n)) (Rk : 'M[R]_m) (Phi Q : 'M[R]_n) (L : 'M[R]_(n, m)) (d : R) : pd Rk -> psd Q -> L *m H = 1%:M ->
  Rlt 0 d -> loewner (d *: (Phi *m (L *m Rk *m L^T) *m Phi^T)) Q ->
  exists S : 'M[R]_n, steady H Rk Phi Q S /\ (forall T, steady H Rk Phi Q T -> T = S) /\ loewner Q S /\
    forall (z : 'cV[R]_m) zs (x : 'cV[R]_n) (P : 'M[R]_n), psd P -> exists (x' : 'cV[R]_n) (P' : 'M[R]_n),
      run (cycles (constant H Rk Phi Q (z :: zs))) (DV x) (DM P) = Ret (true, (DV x', DM P')) /\
      close (Rinv (Rmult d (pow (Rplus 1 d) (size zs)))) P' S.
Proof.
  move=> HR HQ LH D LQ. have FC (z : 'cV[R]_m) : full_cycle d (Cycle z H Rk Phi Q) by split=> //=; exists L.
  exists (S_inf HR HQ D FC). split; first exact: S_steady. split; first exact: S_unique. split; first exact: S_ge.
  move=> z zs x P HP. have [x' E] := iter_run HR FC (z :: zs) x HP. exists x', (iter (size zs).+1 (Fc H Rk Phi Q) P). split; first exact: E.
  exact: S_close.
Qed.
Lemma steady_state_pd n m (H : 'M[R]_(m, n)) (Rk : 'M[R]_m) (Phi Q : 'M[R]_n) (L : 'M[R]_(n, m)) : pd Rk -> pd Q -> L *m H = 1%:M ->
  exists S : 'M[R]_n, pd S /\ steady H Rk Phi Q S /\ (forall T, steady H Rk Phi Q T -> T = S) /\ exists d, Rlt 0 d /\
    forall (z : 'cV[R]_m) zs (x : 'cV[R]_n) (P : 'M[R]_n), psd P -> exists (x' : 'cV[R]_n) (P' : 'M[R]_n),
      run (cycles (constant H Rk Phi Q (z :: zs))) (DV x) (DM P) = Ret (true, (DV x', DM P')) /\
      close (Rinv (Rmult d (pow (Rplus 1 d) (size zs)))) P' S.
Proof.
  move=> HR HQ LH. have [d [D B]] := dominate (Phi *m (L *m Rk *m L^T) *m Phi^T) HQ.
  have [S [S1 [S2 [S3 S4]]]] := steady_state HR (pd_psd HQ) LH D B. exists S. split.
  { split; first exact: (proj1 (proj1 S1)). move=> v V. exact: Rlt_le_trans (proj2 HQ v V) (S3 v). }
  split=> //. split=> //. by exists d.
Qed.
