(** Rounding errors of long histories of filter calls, continued. *)
From Coq Require Import Reals Lra Psatz.
From Flocq Require Import Core.Raux Core.Zaux.
From mathcomp Require Import all_ssreflect all_algebra.
From Verif Require Import Base BaseMx ModelEigen ModelKalman ModelDate ModelStrapdownFloat ModelFilterFloat ModelUpdateFloat ModelLongFloat SpecFloatOps SpecKalman SpecFilter SpecSteady
  SpecFilterFloat SpecUpdateFloat SpecDisturb SpecLopsided SpecLongFloat ProofMx ProofKalman ProofKalman2 ProofKalman4 ProofKalman5 ProofStrapdownFloat ProofStrapdownFloat2
  ProofFilterFloat1 ProofFilterFloat ProofUpdateFloat ProofSteady ProofSteady2 ProofDisturb ProofDisturb2 ProofLopsided ProofFine ProofLongFloat.
Set Implicit Arguments.
Unset Strict Implicit.
Unset Printing Implicit Defensive.
Import GRing.Theory.
Local Open Scope ring_scope.

(** ** Ordinary numbers *)
Section Ordinary.
Local Open Scope R_scope.
Let L := bpow radix2 (-300).
Let U := bpow radix2 300.
Lemma LU : L * U = 1.
Proof. by rewrite /L /U -bpow_plus. Qed.
Lemma L_small : 0 < L <= 1 / 4.
Proof.
  split; first exact: bpow_gt_0. apply: Rle_trans (_ : _ <= bpow radix2 (-2)) _; first by apply: bpow_le. rewrite /=. lra.
Qed.
Lemma tiny_cube : tiny64 <= L * L * L / 4.
Proof.
  rewrite /tiny64 /eta64 /u64 /L -!bpow_plus. apply: (Rmult_le_reg_r (bpow radix2 (-53))); first exact: bpow_gt_0.
  rewrite /Rdiv Rmult_assoc Rinv_l; last exact: Rgt_not_eq (bpow_gt_0 _ _).
  have -> : / 4 = bpow radix2 (-2) by rewrite /=; lra. rewrite -!bpow_plus Rmult_1_r. exact: bpow_le.
Qed.
Lemma ordinary_facts p a rho : ordinary p -> ordinary a -> ordinary rho ->
  [/\ 0 < p, 0 < a, 0 < rho & [/\ tiny64 <= p, tiny64 <= p * a, tiny64 * rho <= p * a, tiny64 * a <= rho & tiny64 <= rho /\ tiny64 * (2 * (p * (a * a)) + rho) <= 1]].
Proof.
  rewrite /ordinary -/L -/U => [[P1 P2]] [A1 A2] [R1 R2]. have T := tiny_cube. have T0 := tiny_pos. have [L0 L1] := L_small. have E := LU.
  have U0 : 0 < U by exact: bpow_gt_0. have L2 : 0 < L * L by exact: Rmult_lt_0_compat. have L3 : 0 < L * L * L by exact: Rmult_lt_0_compat.
  have L2a : L * L <= L / 4 by nra. have L3a : L * L * L <= L * L / 4 by nra.
  have pa : L * L <= p * a by apply: Rmult_le_compat; lra.
  have tu : tiny64 * U <= L * L / 4.
  { apply: Rle_trans (Rmult_le_compat_r _ _ _ (Rlt_le _ _ U0) T) _. rewrite (_ : L * L * L / 4 * U = L * L / 4 * (L * U)); last by field. rewrite E. lra. }
  have tr y : 0 <= y -> y <= U -> tiny64 * y <= L * L / 4 by move=> Y0 Y; apply: Rle_trans tu; apply: Rmult_le_compat_l; lra.
  split; try lra. split; try lra.
  - have := tr rho ltac:(lra) R2. lra.
  - have := tr a ltac:(lra) A2. lra.
  - split; first lra. have X1 : p * (a * a) <= U * (U * U) by repeat apply: Rmult_le_compat; try lra; apply: Rmult_le_pos; lra.
    have X2 : tiny64 * (p * (a * a)) <= L * L * L / 4 * (U * (U * U)) by apply: Rmult_le_compat => //; try lra; repeat apply: Rmult_le_pos; lra.
    have X3 : L * L * L / 4 * (U * (U * U)) = (L * U) * (L * U) * (L * U) / 4 by field. rewrite X3 E in X2.
    have := tr rho ltac:(lra) R2. lra.
Qed.
Lemma ordinary_b p b : ordinary p -> 0 <= b -> b <= U -> tiny64 * b <= p.
Proof.
  rewrite /ordinary -/L => [[P1 _]] B0 B1. have T := tiny_cube. have T0 := tiny_pos. have [L0 L1] := L_small. have E := LU. have U0 : 0 < U by exact: bpow_gt_0.
  apply: Rle_trans (_ : _ <= L * L * L / 4 * U) _; first by apply: Rmult_le_compat; lra.
  rewrite (_ : L * L * L / 4 * U = L * L / 4 * (L * U)); last by field. rewrite E. nra.
Qed.
End Ordinary.

(** ** Entries of covariances *)
Lemma diag_ge0 n (A : 'M[R]_n) i : psd A -> Rle 0 (A i i).
Proof. move=> H. have := proj2 H (delta_mx i 0). by rewrite /qf delta_entry. Qed.
Lemma psd_entry n (A : 'M[R]_n) p i j : psd A -> Rle 0 p -> (forall k, Rle (A k k) p) -> Rle (Rabs (A i j)) p.
Proof.
  move=> HA P0 HD. apply: abs_sq => //. have := @form_bound n A A 1 (delta_mx i 0) (delta_mx j 0) HA (proj1 HA) ltac:(lra).
  have X v : Rle (qf A v) (Rmult 1 (qf A v)) by lra. have Y v : Rle (Ropp (Rmult 1 (qf A v))) (qf A v) by have := proj2 HA v; lra.
  move=> /(_ X Y). rewrite /qf !delta_entry. have := Rmult_le_compat _ _ _ _ (diag_ge0 i HA) (diag_ge0 j HA) (HD i) (HD j). lra.
Qed.
Lemma sized_diag n (A : 'M[R]_n) p : sized p A -> forall k, Rle (A k k) p.
Proof. move=> H k. have := H k k. have := Rle_abs (A k k). lra. Qed.
Lemma alike_sized n (A B : 'M[R]_n) p a : psd A -> Rle 0 p -> sized p A -> Rle 0 a -> Rle a (Rdiv 1 2) -> alike a A B ->
  sized (Rmult (Rdiv 3 2) p) B /\ forall i j, Rle (Rabs (Rminus (B i j) (B j i))) p.
Proof.
  move=> HA P0 SA A0 A1 L. have R i j : Rle (Rmult a (sqrt (Rmult (A i i) (A j j)))) (Rdiv p 2).
  { have D0 := diag_ge0 i HA. have D1 := diag_ge0 j HA. have := Rmult_le_compat _ _ _ _ D0 D1 (sized_diag SA i) (sized_diag SA j). move=> X.
    have := sqrt_le_1_alt _ _ X. rewrite sqrt_square // => Y. have := Rmult_le_compat a _ _ _ A0 (sqrt_pos _) A1 Y. lra. }
  split=> i j.
  - have E := alike_entry i j HA A0 L. have := Rabs_triang (Rminus (B i j) (A i j)) (A i j). rewrite (_ : Rplus (Rminus (B i j) (A i j)) (A i j) = B i j); last by toR; ring.
    have := SA i j. have := R i j. lra.
  - have := alike_asymmetry HA A0 L i j. have := R i j. lra.
Qed.

Lemma le_drop (a b c : R) : Rle 0 a -> Rle (Rplus a b) c -> Rle b c.
Proof. lra. Qed.

Lemma scale_drop (a u w : R) : Rle a 1 -> Rle 0 u -> Rle (Rmult (Rminus 1 a) u) w -> Rle 0 w.
Proof. move=> A U. have : Rle 0 (Rmult (Rminus 1 a) u) by apply: Rmult_le_pos => //; lra. lra. Qed.

(** ** One call *)
Definition eps n (p b g : R) : R := Rmult (Rmult (Rmult 500 (vN n)) (Rplus (Rmult (Rplus 1 g) (Rplus 1 g)) (Rmult b b))) p.
Lemma scall_step r dot n (s : scall n) p b g a (x : 'cV[R]_n) (y y' : 'cV[R]_n) (P P' Ph : 'M[R]_n) : rnd_ok r -> dot_ok dot -> Rle (INR n) 1000000 -> (0 < n)%N ->
  ordinary p -> Rle 0 b -> Rle b (bpow radix2 300) -> Rle 0 g -> Rle (Rmult (Rmult 2210 (vN n)) (Rmult (Rplus 1 g) (Rplus 1 g))) 1 ->
  psd P -> sized p P -> sound p b g s -> Rle 0 a -> Rle a (Rdiv 1 2) -> alike a P Ph ->
  call (exact_call s) (DV y) (DM P) = Ret (true, (DV y', DM P')) -> sized p P' ->
  exists (x1 x2 : 'cV[R]_n) (P1 P2 : 'M[R]_n), call (exact_call s) (DV x) (DM Ph) = Ret (true, (DV x1, DM P1)) /\ scall_f r dot s x Ph = Ret (x2, P2) /\ sized (eps n p b g) (P2 - P1).
Proof.
  move=> Hr Hd HN N1 Op B0 B1 G0 VG HP SP SO A0 A1 L C SP'. have [V0 _] := vN_bounds HN.
  have [P0 _ _ [T1 _ _ _ _]] := ordinary_facts Op Op Op. have P00 : Rle 0 p by lra.
  have [SPh SA] := alike_sized HP P00 SP A0 A1 L. have bb := Rle_0_sqr b. rewrite /Rsqr in bb.
  have gg : Rle 0 (Rmult (Rplus 1 g) (Rplus 1 g)) by exact: Rle_0_sqr. have g1 : Rle 1 (Rmult (Rplus 1 g) (Rplus 1 g)) by have := Rle_0_sqr g; rewrite /Rsqr; lra.
  have vp := Rmult_lt_0_compat _ _ V0 P0. have vpb : Rle 0 (Rmult (Rmult (vN n) p) (Rmult b b)) by apply: Rmult_le_pos => //; lra.
  have vpg : Rle 0 (Rmult (Rmult (vN n) p) (Rmult (Rplus 1 g) (Rplus 1 g))) by apply: Rmult_le_pos => //; lra.
  have vpg1 := Rmult_le_compat_l (Rmult (vN n) p) _ _ (Rlt_le _ _ vp) g1.
  case: s SO C => [Phi Q|z H rho] /= SO C.
  - case: SO => HQ HB. move: C. rewrite predict_ok => /Ret_inj [_ _ EP'].
    have SQ : sized p Q.
    { move=> i j. apply: psd_entry => // k. have E : P' k k = Rplus ((Phi *m P *m Phi^T) k k) (Q k k) by rewrite -EP' mxE. have := sized_diag SP' k. rewrite E. have := diag_ge0 k (psd_congr Phi HP). exact: le_drop. }
    have T2 := ordinary_b Op B0 B1. have X := predict_entries x Hr Hd HN SPh SQ HB B0 T1 T2.
    do 4 eexists. split; first exact: predict_ok. split; first by rewrite [filterPredict_f _ _ _ _ _ _]surjective_pairing.
    move=> i j. apply: Rle_trans (X i j) _. rewrite /eps. lra.
  - case: SO => Orho [a' [Oa [Ha Hg]]]. have [_ a0 rho0 [_ T2 T3 T4 [T5 T6]]] := ordinary_facts Op Oa Orho.
    have PP : Rle 0 ((H *m Ph *m H^T) 0 0).
    { have E : (H *m Ph *m H^T) 0 0 = qf Ph H^T by rewrite /qf trmxK. rewrite E. have := proj1 (alike_between A0 HP L) H^T. rewrite qfZ. have := proj2 HP H^T. apply: scale_drop. lra. }
    have [xf [Pf [EF [UN SZ]]]] := measure_entries Hr Hd HN N1 P0 a0 rho0 G0 Hg T1 T2 T3 T4 T5 T6 VG SPh SA PP Ha x (const_mx z).
    do 4 eexists. split; first by rewrite update_ok UN; reflexivity. split; first exact: EF.
    move=> i j. apply: Rle_trans (SZ i j) _. rewrite /eps. lra.
Qed.
Lemma sandwich (a w : R) : Rlt 0 (Rmult a (Rsqr w)) -> Rlt 0 (Rmult (Rmult w a) w).
Proof. rewrite /Rsqr. lra. Qed.
Lemma sound_valid n p b g (s : scall n) : sound p b g s -> valid (exact_call s).
Proof.
  case: s => [Phi Q [HQ _]|z H rho [[Rl _] _]] //=. have Rp : Rlt 0 rho by have := bpow_gt_0 radix2 (-300); lra.
  split; first by apply/matrixP => i j; rewrite !mxE. move=> w /eqP W. rewrite /qf mxE big_ord1 mxE big_ord1 !mxE.
  have W0 : w 0 0 <> IZR 0. { move=> E. apply: W. apply/matrixP => i j. by rewrite !ord1 mxE E. }
  have := Rmult_lt_0_compat _ _ Rp (Rlt_0_sqr _ W0). exact: sandwich.
Qed.
Lemma tame_sized n p l b g (h : seq (scall n)) P : tame p l b g h P -> sized p P.
Proof. by case: h => [|s h] //= []. Qed.

Lemma tame_valid n p l b g (h : seq (scall n)) : forall P, psd P -> tame p l b g h P -> all_valid [seq exact_call s | s <- h].
Proof.
  elim: h => [|s h IH] P HP //= [_ [SO TM]]. have V := sound_valid SO. split=> //. have [y [S [F HS]]] := call_valid 0 V HP. have [_ T] := TM _ _ _ F. exact: IH T.
Qed.

(** ** Runs *)
Lemma psd_alike_low n (P' P1 : 'M[R]_n) l a : Rlt 0 l -> loewner (l *: 1%:M) P' -> Rle 0 a -> Rle a (Rdiv 1 2) -> psd P' -> alike a P' P1 ->
  forall w, Rle (Rmult (Rdiv l 2) (qf 1%:M w)) (qf P1 w).
Proof.
  move=> L HL A0 A1 HP W w. have := HL w. rewrite qfZ => X. have := proj1 (alike_between A0 HP W) w. rewrite qfZ => Y.
  have := Rmult_le_compat_r _ _ _ (proj2 HP w) (_ : Rle (Rdiv 1 2) (Rminus 1 a)). move=> /(_ ltac:(lra)) Z. lra.
Qed.
Section Runs.
Variables (r : R -> R) (dot : dot_fun) (n m : nat) (p l b g d : R).
Hypotheses (Hr : rnd_ok r) (Hd : dot_ok dot) (HN : Rle (INR n) 1000000) (N1 : (0 < n)%N) (Op : ordinary p) (L0 : Rlt 0 l)
  (B0 : Rle 0 b) (B1 : Rle b (bpow radix2 300)) (G0 : Rle 0 g) (D : Rlt 0 d).
Let e := Rdiv (Rmult (INR n) (eps n p b g)) (Rdiv l 2).
Let K := limit d (Rmult 2 e) m.
Hypotheses (K14 : Rle K (Rdiv 1 4)) (KE : Rle (Rmult K K) e).
Let n1 : Rle 1 (INR n).
Proof. have := le_INR 1 n (elimT leP N1). exact. Qed.
Let p0 : Rlt 0 p.
Proof. by have [] := ordinary_facts Op Op Op. Qed.
Let v0 : Rlt 0 (vN n).
Proof. by have [] := vN_bounds HN. Qed.
Let eps0 : Rle 0 (eps n p b g).
Proof.
  rewrite /eps. apply: Rmult_le_pos; last lra. apply: Rmult_le_pos; first lra. have := Rle_0_sqr (Rplus 1 g). have := Rle_0_sqr b. rewrite /Rsqr. lra.
Qed.
Let e0 : Rle 0 e.
Proof. rewrite /e. apply: Rmult_le_pos; last by left; apply: Rinv_0_lt_compat; lra. apply: Rmult_le_pos => //. lra. Qed.
Let e2 : Rle 0 (Rmult 2 e).
Proof. lra. Qed.
Let e18 : Rle (Rmult 2 e) (Rdiv 1 8).
Proof. have := limit_ge m D e2. rewrite -/K. lra. Qed.
Lemma small_sizes (P' : 'M[R]_n) : sized p P' -> loewner (l *: 1%:M) P' -> Rle (Rmult (Rmult 2210 (vN n)) (Rmult (Rplus 1 g) (Rplus 1 g))) 1.
Proof.
  move=> SP LP. have lp : Rle l p.
  { have := LP (delta_mx (Ordinal N1) 0). rewrite qfZ /qf !delta_entry mxE eqxx. have := sized_diag SP (Ordinal N1). move: (P' _ _) => w. toR. rewrite mulr1n. toR. lra. }
  have E : Rle (Rmult 1000 (Rmult (vN n) (Rmult (Rplus 1 g) (Rplus 1 g)))) e.
  { rewrite /e. apply: (Rmult_le_reg_r (Rdiv l 2)); first lra. have -> : Rmult (Rdiv (Rmult (INR n) (eps n p b g)) (Rdiv l 2)) (Rdiv l 2) = Rmult (INR n) (eps n p b g) by field; lra.
    have gg : Rle 0 (Rmult (vN n) (Rmult (Rplus 1 g) (Rplus 1 g))) by apply: Rmult_le_pos; [lra|exact: Rle_0_sqr].
    have X := Rmult_le_compat_l _ _ _ gg lp. have bb : Rle 0 (Rmult (Rmult (vN n) (Rmult b b)) p) by apply: Rmult_le_pos; [apply: Rmult_le_pos; [lra|exact: Rle_0_sqr]|lra].
    have Y : Rle (Rmult 500 (Rmult (Rmult (vN n) (Rmult (Rplus 1 g) (Rplus 1 g))) p)) (eps n p b g) by rewrite /eps; lra.
    have Z := Rmult_le_compat_r _ _ _ eps0 n1. lra. }
  lra.
Qed.
Lemma long_bound h : forall k (x y y' : 'cV[R]_n) (P Ph P' : 'M[R]_n), (k <= m)%N -> psd P -> tame p l b g h P -> excited d [seq exact_call s | s <- h] P ->
  spaced m k [seq exact_call s | s <- h] -> alike (level d (Rmult 2 e) m k) P Ph ->
  run [seq exact_call s | s <- h] (DV y) (DM P) = Ret (true, (DV y', DM P')) ->
  exists (x' : 'cV[R]_n) (Ph' : 'M[R]_n), srun_f r dot h x Ph = Ret (x', Ph') /\ psd P' /\ alike K P' Ph'.
Proof.
  have D0 : Rle 0 d by lra. elim: h => [|s h IH] k x y y' P Ph P' KM HP /=.
  - move=> SP _ _ W /Ret_inj [_ _ <-]. exists x, Ph. split=> //. split=> //. by apply: alike_le W => //; [exact: level_ge0|exact: level_le].
  - move=> [SP [SO TM]] [X1 X2] Sp W. have V := sound_valid SO. have [y2 [S2 [F2 HS2]]] := call_valid y V HP. rewrite F2 /= => RU.
    have [LP TM2] := TM _ _ _ F2. have SP2 := tame_sized TM2. have X3 := X2 _ _ _ F2.
    have VG := small_sizes SP2 LP.
    have LE : Rle (level d (Rmult 2 e) m k) K := level_le m k D e2. have LG := level_ge0 D e2 KM.
    have L4 : Rle (level d (Rmult 2 e) m k) (Rdiv 1 4) by lra. have L2 : Rle (level d (Rmult 2 e) m k) (Rdiv 1 2) by lra.
    have [x1 [x2 [P1 [P2 [C1 [CF SZ]]]]]] := scall_step x Hr Hd HN N1 Op B0 B1 G0 VG HP SP SO LG L2 W F2 SP2.
    have W2 := call_alike LG L2 D0 V HP X1 W C1 F2.
    have LL : Rle (Rmult (level d (Rmult 2 e) m k) (level d (Rmult 2 e) m k)) e by apply: Rle_trans KE; exact: sq_le.
    have LD := div_le_self LG D0. have LD0 := div_pos LG D0. rewrite CF /=.
    have fin k' a' : Rle 0 a' -> Rle a' (Rdiv 1 2) -> alike a' S2 P1 -> Rle (Rplus a' (Rmult 2 e)) (level d (Rmult 2 e) m k') -> (k' <= m)%N -> spaced m k' [seq exact_call s | s <- h] ->
      exists (x' : 'cV[R]_n) (Ph' : 'M[R]_n), srun_f r dot h x2 P2 = Ret (x', Ph') /\ psd P' /\ alike K P' Ph'.
    { move=> a0 a1 WW LV KM' Sp'. have AE : alike e P1 P2 by apply: alike_entries => //; [lra|exact: (psd_alike_low L0 LP a0 a1 HS2 WW)].
      have a11 : Rle a' 1 by lra. have W3 := alike_trans HS2 a0 a11 e0 WW AE.
      apply: (IH k' x2 y2 y' S2 P2 P' KM' HS2 TM2 X3 Sp' _ RU). apply: alike_le W3 => //. lra. }
    move: Sp W2. case: s SO TM V X1 F2 X2 C1 CF => [Phi Q|z H rho] SO TM V X1 F2 X2 C1 CF /= Sp W2.
    + apply: (fin m _ LD0 _ W2 _ (leqnn m) Sp); [lra|have := level_predict m k D e2; lra].
    + case: k KM W W2 Sp LE LG L4 L2 LL LD LD0 => [|k] KM W W2 //= Sp LE LG L4 L2 LL LD LD0. set lv := level d (Rmult 2 e) m k.+1 in LE LG L4 L2 LL W2 *.
      have ll0 : Rle 0 (Rmult lv lv) by exact: Rle_0_sqr.
      apply: (fin k _ _ _ W2 _ (ltnW KM) Sp); [lra| |have := level_update d (Rmult 2 e) m k; rewrite -/lv; lra].
      have := Rmult_le_compat_l _ _ _ LG L4. lra.
Qed.
End Runs.
Lemma alike_variance n (A B : 'M[R]_n) (e : R) (v : 'cV[R]_n) : psd A -> Rle 0 e -> alike e A B -> Rle (Rabs (Rminus (qf B v) (qf A v))) (Rmult e (qf A v)).
Proof.
  move=> [_ HA] E0 L. apply: abs_sq; first exact: Rmult_le_pos. have := L v v. rewrite -/(qf (B - A) v) qfB. lra.
Qed.
Lemma long_runs r dot n m (p l b g d : R) (h : seq (scall n)) (x : 'cV[R]_n) (P : 'M[R]_n) :
  rnd_ok r -> dot_ok dot -> Rle (INR n) 1000000 -> (0 < n)%N -> ordinary p -> Rlt 0 l -> Rle 0 b -> Rle b (bpow radix2 300) -> Rle 0 g -> Rlt 0 d ->
  let e := Rmult (Rmult (Rmult 1000 (INR n)) (Rmult (Rplus (INR n) 1) u64)) (Rmult (Rdiv p l) (Rplus (Rmult (Rplus 1 g) (Rplus 1 g)) (Rmult b b))) in
  let w := Rmult (Rplus (INR m) 1) (Rplus 1 (Rinv d)) in
  Rle (Rmult (Rmult 16 e) (Rmult w w)) 1 -> psd P -> tame p l b g h P -> excited d [seq exact_call s | s <- h] P -> spaced m m [seq exact_call s | s <- h] ->
  exists (xf xe : 'cV[R]_n) (Pf Pe : 'M[R]_n), srun_f r dot h x P = Ret (xf, Pf) /\
    run [seq exact_call s | s <- h] (DV x) (DM P) = Ret (true, (DV xe, DM Pe)) /\ psd Pe /\ alike (Rmult (Rmult 4 e) w) Pe Pf.
Proof.
  move=> Hr Hd HN N1 Op L0 B0 B1 G0 D e w EW HP TM X Sp. have M := pos_INR m. have I : Rlt 0 (Rinv d) by exact: Rinv_0_lt_compat.
  have w1 : Rle 1 w by rewrite /w; have := Rmult_le_pos _ _ M (Rlt_le _ _ I); lra.
  pose e' := Rdiv (Rmult (INR n) (eps n p b g)) (Rdiv l 2). have EE : e' = e by rewrite /e' /e /eps /vN; field; lra.
  have n1 : Rle 1 (INR n) by have := le_INR 1 n (elimT leP N1).
  have [p0 _ _ _] := ordinary_facts Op Op Op. have [v0 _] := vN_bounds HN.
  have E0 : Rle 0 e.
  { rewrite /e. apply: Rmult_le_pos.
    - apply: Rmult_le_pos; first lra. move: v0. rewrite /vN. toR. lra.
    - apply: Rmult_le_pos; first by apply: Rmult_le_pos; [lra|left; exact: Rinv_0_lt_compat]. have := Rle_0_sqr (Rplus 1 g). have := Rle_0_sqr b. rewrite /Rsqr. lra. }
  have KL : limit d (Rmult 2 e') m = Rmult (Rmult 4 e) w by rewrite EE /limit /w; ring.
  have K14 : Rle (limit d (Rmult 2 e') m) (Rdiv 1 4).
  { rewrite KL. have : Rle (Rmult (Rmult (Rmult 16 e) w) 1) (Rmult (Rmult (Rmult 16 e) w) w) by apply: Rmult_le_compat_l => //; apply: Rmult_le_pos; lra. lra. }
  have KE : Rle (Rmult (limit d (Rmult 2 e') m) (limit d (Rmult 2 e') m)) e'.
  { rewrite KL EE. have := Rmult_le_compat_l _ _ _ E0 EW. lra. }
  have V : all_valid [seq exact_call s | s <- h] by exact: tame_valid TM.
  have [xe [Pe [RU HPe]]] := run_valid x V HP.
  have W0 : alike (level d (Rmult 2 e') m m) P P by exact: alike_refl.
  have [xf [Pf [RF [_ W]]]] := long_bound Hr Hd HN N1 Op L0 B0 B1 G0 D K14 KE x (leqnn m) HP TM X Sp W0 RU.
  exists xf, xe, Pf, Pe. split=> //. split=> //. split=> //. by rewrite -KL.
Qed.

(** ** A case *)
Lemma rank_one n (x x' : 'cV[R]_n) (P P' : 'M[R]_n) (z : 'M[R]_1) (H : 'rV[R]_n) (Rk : 'M[R]_1) i j : Rlt 0 ((H *m P *m H^T + Rk)%R ord0 ord0) ->
  call (@Update n 1 z H Rk) (DV x) (DM P) = Ret (true, (DV x', DM P')) ->
  P' i j = Rminus (P i j) (Rmult (Rdiv ((P *m H^T) i ord0) ((H *m P *m H^T + Rk)%R ord0 ord0)) ((H *m P) ord0 j)).
Proof.
  move=> S0 /update_inv [U _ ->]. rewrite joseph_gain' // mulmxBl mul1mx entry_sub -mulmxA mxE big_ord1. congr (Rminus _ (Rmult _ _)). exact: gain_single.
Qed.
Definition watch (k : 'I_2) : 'rV[R]_2 := \row_j (if j == k then R1 else R0).
Definition one_round (zs : R * R) : seq (scall 2) := [:: SUpdate zs.1 (watch 0) 1; SUpdate zs.2 (watch 1) 1; SPredict 1%:M (Rdiv 1 2)%:M].
Definition rounds (zs : seq (R * R)) : seq (scall 2) := flatten [seq one_round z | z <- zs].

Lemma watch_mul m (k : 'I_2) (A : 'M[R]_(2, m)) j : (watch k *m A) ord0 j = A k j.
Proof.
  rewrite mxE (bigD1 k) //= big1 ?addr0; last by move=> l /negbTE E; rewrite mxE E mul0r. by rewrite mxE eqxx mul1r.
Qed.
Lemma mul_watch m (k : 'I_2) (A : 'M[R]_(m, 2)) i : (A *m (watch k)^T) i ord0 = A i k.
Proof.
  rewrite mxE (bigD1 k) //= big1 ?addr0; last by move=> l /negbTE E; rewrite !mxE E mulr0. by rewrite !mxE eqxx mulr1.
Qed.
Lemma watch_innov (k : 'I_2) (A : 'M[R]_2) : (watch k *m A *m (watch k)^T + (const_mx R1 : 'M[R]_1)) ord0 ord0 = Rplus (A k k) 1.
Proof. by rewrite mxE mul_watch watch_mul mxE. Qed.
Lemma watch_sum (k : 'I_2) : \sum_j Rabs (watch k 0 j) = R1.
Proof.
  rewrite (bigD1 k) //= big1 ?addr0; last by move=> l /negbTE E; rewrite mxE E; exact: Rabs_R0. rewrite mxE eqxx. exact: Rabs_R1.
Qed.
Lemma watch_call (k : 'I_2) (z : R) (x x' : 'cV[R]_2) (P P' : 'M[R]_2) : Rle 0 (P k k) ->
  call (exact_call (SUpdate z (watch k) 1)) (DV x) (DM P) = Ret (true, (DV x', DM P')) ->
  forall i j, P' i j = Rminus (P i j) (Rdiv (Rmult (P i k) (P k j)) (Rplus (P k k) 1)).
Proof.
  move=> P0 E i j. have := @rank_one 2 x x' P P' (const_mx z) (watch k) (const_mx R1) i j. rewrite watch_innov mul_watch watch_mul => H. rewrite (H _ E) {E H}; last by toR; lra.
  congr (Rminus _ _). rewrite /Rdiv. ring.
Qed.
Definition half_way : 'M[R]_2 := mx2 (Rdiv 1 2) 0 0 1.
Lemma round1 z (x x' : 'cV[R]_2) (P' : 'M[R]_2) : call (exact_call (SUpdate z (watch 0) 1)) (DV x) (DM (1%:M : 'M[R]_2)) = Ret (true, (DV x', DM P')) -> P' = half_way.
Proof.
  move=> E. have P0 : Rle 0 ((1%:M : 'M[R]_2) 0 0) by rewrite mxE; exact: Rle_0_1.
  have X := watch_call P0 E. apply/matrixP => i j. rewrite X {X E P0} !mxE. case: i => [[|[|i]] Hi] //; case: j => [[|[|j]] Hj] //=; rewrite ?mulr1n ?mulr0n; toR; lra.
Qed.
Lemma round2 z (x x' : 'cV[R]_2) (P' : 'M[R]_2) : call (exact_call (SUpdate z (watch 1) 1)) (DV x) (DM half_way) = Ret (true, (DV x', DM P')) -> P' = (Rdiv 1 2)%:M.
Proof.
  move=> E. have P0 : Rle 0 (half_way 1 1) by rewrite mxE; exact: Rle_0_1.
  have X := watch_call P0 E. apply/matrixP => i j. rewrite X {X E P0} !mxE. case: i => [[|[|i]] Hi] //; case: j => [[|[|j]] Hj] //=; rewrite ?mulr1n ?mulr0n; toR; lra.
Qed.
Lemma half_half : (Rdiv 1 2)%:M + (Rdiv 1 2)%:M = 1%:M :> 'M[R]_2.
Proof. rewrite -raddfD /=. have E : Rplus (Rdiv 1 2) (Rdiv 1 2) = R1 by field. by rewrite [_ + _]E. Qed.
Lemma round3 (x x' : 'cV[R]_2) (P' : 'M[R]_2) : call (exact_call (SPredict 1%:M ((Rdiv 1 2)%:M : 'M[R]_2))) (DV x) (DM ((Rdiv 1 2)%:M : 'M[R]_2)) = Ret (true, (DV x', DM P')) -> P' = 1%:M.
Proof. rewrite /= predict_ok => /Ret_inj [_ _ <-]. by rewrite mul1mx trmx1 mulmx1 half_half. Qed.
Lemma sized_case : [/\ sized 1 (1%:M : 'M[R]_2), sized 1 half_way & sized 1 ((Rdiv 1 2)%:M : 'M[R]_2)].
Proof.
  split=> i j; rewrite mxE; case: i => [[|[|i]] Hi] //; case: j => [[|[|j]] Hj] //=; rewrite ?mulr1n ?mulr0n; toR; rewrite ?Rabs_R0 ?Rabs_R1 ?(Rabs_right (Rdiv 1 2)); lra.
Qed.
Lemma low_case : [/\ loewner (Rdiv 1 2 *: 1%:M) (1%:M : 'M[R]_2), loewner (Rdiv 1 2 *: 1%:M) half_way & loewner (Rdiv 1 2 *: 1%:M) ((Rdiv 1 2)%:M : 'M[R]_2)].
Proof.
  split=> w; rewrite ?scalemx1 /qf !(mul_mx_scalar, mulmx1) !(mxE, sum2) /=; move: (w 0 0) (w 1 0) => a b; have := Rle_0_sqr a; have := Rle_0_sqr b; rewrite /Rsqr; toR; lra.
Qed.
Lemma ordinary1 : ordinary 1.
Proof. have E : IZR 1 = bpow radix2 0 by []. split; rewrite E; exact: bpow_le. Qed.
Lemma sound_case k z : sound 1 1 1 (SUpdate z (watch k) 1).
Proof.
  split; first exact: ordinary1. exists R1. split; first exact: ordinary1. rewrite watch_sum. split; first exact: Rle_refl. right. ring.
Qed.
Lemma sound_case2 : sound 1 1 1 (SPredict 1%:M ((Rdiv 1 2)%:M : 'M[R]_2)).
Proof.
  split; first by apply: scalar_psd; lra. move=> i. rewrite sum2 !mxE. case: i => [[|[|i]] Hi] //=; rewrite ?mulr1n ?mulr0n; toR; rewrite ?Rabs_R0 ?Rabs_R1; lra.
Qed.
Lemma rounds_tame zs : tame 1 (Rdiv 1 2) 1 1 (rounds zs) 1%:M.
Proof.
  have [S1 S2 S3] := sized_case. have [L1 L2 L3] := low_case.
  elim: zs => [|[z1 z2] zs IH]; first exact: S1. rewrite [rounds _]/=.
  apply: (conj S1 (conj (sound_case 0 z1) _)) => x x' P' /round1 ->. split; first exact: L2.
  apply: (conj S2 (conj (sound_case 1 z2) _)) => y y' Q' /round2 ->. split; first exact: L3.
  apply: (conj S3 (conj sound_case2 _)) => u u' U' /round3 ->. split; first exact: L1. exact: IH.
Qed.
Lemma rounds_excited zs : excited 1 [seq exact_call s | s <- rounds zs] 1%:M.
Proof.
  elim: zs => [|[z1 z2] zs IH]; first exact: I. rewrite [rounds _]/=.
  apply: (conj I _) => x x' P' /round1 ->. apply: (conj I _) => y y' Q' /round2 ->. split.
  - have X : loewner (1 *: (1%:M *m ((Rdiv 1 2)%:M : 'M[R]_2) *m (1%:M)^T)) ((Rdiv 1 2)%:M : 'M[R]_2).
    { rewrite mul1mx trmx1 mulmx1 scale1r. exact: loewner_refl. }
    exact: X.
  - move=> u u' U' /round3 ->. exact: IH.
Qed.
Lemma rounds_spaced zs : spaced 2 2 [seq exact_call s | s <- rounds zs].
Proof. by elim: zs. Qed.
Lemma u64_e16 : Rle u64 (Rdiv 12 100000000000000000).
Proof. rewrite u64_val. lra. Qed.
Lemma rounds_case zs (x : 'cV[R]_2) : exists (xf xe : 'cV[R]_2) (Pf Pe : 'M[R]_2), srun_f rnd64 (@dot_loop rnd64) (rounds zs) x 1%:M = Ret (xf, Pf) /\
  run [seq exact_call s | s <- rounds zs] (DV x) (DM (1%:M : 'M[R]_2)) = Ret (true, (DV xe, DM Pe)) /\ alike (Rdiv 2 10000000000) Pe Pf.
Proof.
  have [U0 _] := u64_bounds. have U := u64_e16.
  have N2 : Rle (INR 2) 1000000 by rewrite /=; lra. have O := ordinary1.
  have := @long_runs rnd64 (@dot_loop rnd64) 2 2 1 (Rdiv 1 2) 1 1 1 (rounds zs) x 1%:M rnd64_rnd_ok (dot_loop_ok rnd64_rnd_ok) N2 isT O ltac:(lra) ltac:(lra) (proj2 O) ltac:(lra) ltac:(lra).
  cbv zeta. have -> : INR 2 = IZR 2 by rewrite /=; ring.
  set e := Rmult (Rmult (Rmult 1000 2) _) _. set w := Rmult _ (Rplus 1 (Rinv 1)).
  have Ee : e = Rmult 60000 u64 by rewrite /e; field. have Ew : w = IZR 6 by rewrite /w; field. rewrite Ee Ew.
  move=> /(_ ltac:(lra) (pd_psd (pd1 2)) (rounds_tame zs) (rounds_excited zs) (rounds_spaced zs)) [xf [xe [Pf [Pe [E1 [E2 [HP A]]]]]]].
  exists xf, xe, Pf, Pe. split=> //. split=> //. apply: alike_le A => //; lra.
Qed.
