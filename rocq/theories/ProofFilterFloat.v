(** Rounding errors of the prediction of a filter of any size. *)
From Coq Require Import Reals Lra Psatz.
From mathcomp Require Import all_ssreflect all_algebra.
From Verif Require Import Base BaseMx ModelEigen ModelKalman ModelDate ModelStrapdownFloat ModelFilterFloat SpecFloatOps SpecKalman SpecFilterFloat ProofMx ProofKalman
  ProofStrapdownFloat ProofStrapdownFloat2 ProofFilterFloat1.
Set Implicit Arguments.
Unset Strict Implicit.
Unset Printing Implicit Defensive.
Import GRing.Theory.
Local Open Scope ring_scope.

Lemma sum_le (I : finType) (F G : I -> R) : (forall i, Rle (F i) (G i)) -> Rle (\sum_i F i) (\sum_i G i).
Proof. move=> H. apply: (big_ind2 (fun x y => Rle x y)); [exact: Rle_refl|move=> *; exact: Rplus_le_compat|move=> i _; exact: H]. Qed.
Lemma sum_abs (I : finType) (F : I -> R) : Rle (Rabs (\sum_i F i)) (\sum_i Rabs (F i)).
Proof.
  apply: (big_ind2 (fun x y => Rle (Rabs x) y)); [rewrite Rabs_R0; exact: Rle_refl| |move=> i _; exact: Rle_refl].
  move=> x1 x2 y1 y2 A B. apply: Rle_trans (Rabs_triang _ _) _. exact: Rplus_le_compat.
Qed.
Lemma sum_ge0 (I : finType) (F : I -> R) : (forall i, Rle 0 (F i)) -> Rle 0 (\sum_i F i).
Proof. move=> H. apply: (big_ind (fun x => Rle 0 x)); [exact: Rle_refl|move=> x y; toR; exact: Rplus_le_le_0_compat|move=> i _; exact: H]. Qed.

Lemma sum_add (I : finType) (F G : I -> R) : Rplus (\sum_i F i) (\sum_i G i) = \sum_i Rplus (F i) (G i).
Proof. by change (Rplus ?x ?y) with (x + y); rewrite -big_split. Qed.
Lemma sum_scale (I : finType) c (F : I -> R) : Rmult c (\sum_i F i) = \sum_i Rmult c (F i).
Proof. by change (Rmult c ?x) with (c * x); rewrite mulr_sumr. Qed.

(** ** The plain loop *)
Lemma dot_loop_ok r : rnd_ok r -> dot_ok (@dot_loop r).
Proof.
  move=> Hr. elim=> [|k IH] a b Hk.
  - rewrite /= !big_ord0. toR. rewrite Rminus_0_r Rabs_R0 Rmult_0_r Rmult_0_r Rmult_0_l. lra.
  - move: Hk. rewrite S_INR => Hk.
    have K0 := pos_INR k.
    have := IH (fun i => a (widen_ord (leqnSn k) i)) (fun i => b (widen_ord (leqnSn k) i)).
    rewrite /= !big_ord_recr /= => /(_ _) H.
    apply: (@loop_step r (INR k) _ _ _ (Rmult (a ord_max) (b ord_max)) Hr _ _ (H _)); try lra.
    exact: sum_abs.
Qed.

Lemma INR_ge1 n (i : 'I_n) : Rle 1 (INR n).
Proof. case: n i => [[]//|k _]. rewrite S_INR. have := pos_INR k. lra. Qed.

(** ** The products *)
Section Predict.
Variable r : R -> R.
Variable dot : dot_fun.
Hypothesis Hr : rnd_ok r.
Hypothesis Hd : dot_ok dot.
Variable n : nat.
Hypothesis Hn : Rle (INR n) 1000000.
Definition gam : R := Rmult (Rdiv 101 100) (Rmult (INR n + 1) u64).
Definition und : R := Rmult (3 * INR n) eta64.
Lemma gam_ge0 : Rle 0 gam.
Proof. rewrite /gam. have [U0 U1] := u64_bounds. have N0 := pos_INR n. toR. apply: Rmult_le_pos; first lra. apply: Rmult_le_pos; lra. Qed.

Lemma mul_err m p (A : 'M[R]_(m, n)) (B : 'M[R]_(n, p)) i j :
  Rle (Rabs (Rminus (mul_f dot A B i j) ((A *m B) i j))) (Rplus (Rmult gam ((map_mx Rabs A *m map_mx Rabs B) i j)) und).
Proof.
  rewrite /mul_f !mxE. have := Hd (fun l => A i l) (fun l => B l j) Hn.
  rewrite (_ : \sum_j0 map_mx Rabs A i j0 * map_mx Rabs B j0 j = \sum_i0 Rabs (A i i0 * B i0 j)) //.
  by apply: eq_bigr => l _; rewrite !mxE; toR; rewrite Rabs_mult.
Qed.

Variables (Phi P Q : 'M[R]_n).
Let M := Phi *m P.
Let MF := mul_f dot Phi P.
Let SF := mul_f dot MF Phi^T.
Lemma sizes_sum i j : sizes Phi P i j = \sum_l (map_mx Rabs Phi *m map_mx Rabs P) i l * Rabs (Phi j l).
Proof. rewrite /sizes mxE. by apply: eq_bigr => l _; rewrite [(map_mx Rabs Phi)^T _ _]mxE [map_mx Rabs Phi j l]mxE. Qed.
Lemma abs_prod_ge0 i l : Rle 0 ((map_mx Rabs Phi *m map_mx Rabs P) i l).
Proof. rewrite mxE. apply: sum_ge0 => q. rewrite !mxE. toR. apply: Rmult_le_pos; exact: Rabs_pos. Qed.
Lemma M_size i l : Rle (Rabs (M i l)) ((map_mx Rabs Phi *m map_mx Rabs P) i l).
Proof.
  rewrite /M !mxE. apply: Rle_trans (sum_abs _) _. apply: sum_le => q. rewrite !mxE. toR. rewrite Rabs_mult. exact: Rle_refl.
Qed.
Lemma und_row j c : Rmult c (row_size Phi j) = \sum_l Rmult c (Rabs (Phi j l)).
Proof. exact: sum_scale. Qed.

Lemma cov_err i j :
  Rle (Rabs (Rminus ((filterPredict_f r dot (0 : 'cV[R]_n) P Phi Q).2 i j) ((Phi *m P *m Phi^T + Q)%R i j)))
      (Rplus (Rplus (Rmult (Rmult (3 * (INR n + 1)) u64) (sizes Phi P i j)) (Rmult u64 (Rabs (Q i j)))) (Rmult (Rmult (5 * INR n) (1 + row_size Phi j)) eta64)).
Proof.
  rewrite /filterPredict_f /=. rewrite [X in Rminus X _]mxE [X in r X]mxE [X in Rminus _ X]mxE.
  have N1 := INR_ge1 i.
  have G0 := gam_ge0. have E0 := eta_pos.
  have W0 : Rle 0 und by rewrite /und; toR; apply: Rmult_le_pos; lra.
  have RJ : Rle 0 (row_size Phi j) by apply: sum_ge0 => l; exact: Rabs_pos.
  have Z0 : Rle 0 (sizes Phi P i j).
  { rewrite sizes_sum. apply: sum_ge0 => l. toR. apply: Rmult_le_pos; [exact: abs_prod_ge0|exact: Rabs_pos]. }
  have FM := mul_err Phi P. rewrite -/MF -/M in FM *.
  set SM := (map_mx Rabs MF *m map_mx Rabs Phi^T) i j.
  apply: (@finish r (INR n) _ _ SM _ _ _ Hr); [by split|exact: Z0|exact: RJ| | |].
  - rewrite sizes_sum mxE. apply: Rle_trans (sum_abs _) _. apply: sum_le => l. rewrite [Phi^T _ _]mxE. toR. rewrite Rabs_mult.
    apply: Rmult_le_compat_r; [exact: Rabs_pos|exact: M_size].
  - rewrite -/gam -/und und_row sizes_sum.
    rewrite sum_scale sum_add /SM mxE. apply: sum_le => l.
    rewrite [map_mx Rabs MF _ _]mxE [map_mx Rabs Phi^T _ _]mxE [Phi^T _ _]mxE. toR.
    have A := FM i l. have B := M_size i l. have C := Rabs_pos (Phi j l). have D := abs_prod_ge0 i l.
    set x := MF i l in A *. set y := M i l in A B. set t := (map_mx Rabs Phi *m map_mx Rabs P) i l in A B D *. set f := Rabs _ in C *. move: A B C D. move: x y t f => x y t f A B C D.
    have E : Rle (Rabs x) ((1 + gam) * t + und).
    { have := Rabs_triang (Rminus x y) y. rewrite (_ : Rplus (Rminus x y) y = x); last by ring. toR. lra. }
    have := Rmult_le_compat_r f _ _ C E. toR. lra.
  - rewrite -/gam -/und und_row.
    have A := mul_err MF Phi^T i j. rewrite -/SF -/SM in A *.
    have B : Rle (Rabs (Rminus ((MF *m Phi^T) i j) ((M *m Phi^T) i j))) (Rplus (Rmult gam (sizes Phi P i j)) (\sum_l Rmult und (Rabs (Phi j l)))).
    { rewrite (_ : Rminus ((MF *m Phi^T) i j) ((M *m Phi^T) i j) = \sum_l (MF i l - M i l) * Phi j l); last first.
      { rewrite !mxE. change (Rminus ?x ?y) with (x - y). rewrite -sumrB. by apply: eq_bigr => l _; rewrite [Phi^T _ _]mxE mulrBl. }
      apply: Rle_trans (sum_abs _) _. rewrite sizes_sum. rewrite sum_scale sum_add.
      apply: sum_le => l. have X := FM i l. have C := Rabs_pos (Phi j l). toR. rewrite Rabs_mult.
      have := Rmult_le_compat_r _ _ _ C X. rewrite Rmult_plus_distr_r Rmult_assoc. exact. }
    set s1 := SF i j in A *. set s2 := (MF *m Phi^T) i j in A B. set s3 := (M *m Phi^T) i j in B *.
    have := Rabs_triang (Rminus s1 s2) (Rminus s2 s3).
    rewrite (_ : Rplus (Rminus s1 s2) (Rminus s2 s3) = Rminus s1 s3); last by ring. move=> T. apply: Rle_trans T _. exact: Rplus_le_compat.
Qed.
Lemma state_err (x : 'cV[R]_n) i :
  Rle (Rabs (Rminus ((filterPredict_f r dot x P Phi Q).1 i ord0) ((Phi *m x) i ord0))) (Rplus (Rmult gam ((map_mx Rabs Phi *m map_mx Rabs x) i ord0)) und).
Proof. exact: mul_err. Qed.
End Predict.

Lemma dots_ok r dot n (x x1 : 'cV[R]_n) (P Phi Q P1 : 'M[R]_n) : rnd_ok r -> dot_ok dot -> Rle (INR n) 1000000 ->
  exists xe Pe, filterPredict (DV x) (DM P) (DM Phi) (DM Q) (DV x1) (DM P1) = Ret (true, (DV xe, DM Pe)) /\
  let: (xf, Pf) := filterPredict_f r dot x P Phi Q in
  (forall i, Rle (Rabs (Rminus (xf i ord0) (xe i ord0)))
                 (Rplus (Rmult (Rmult (Rdiv 101 100) (Rmult (INR n + 1) u64)) ((map_mx Rabs Phi *m map_mx Rabs x) i ord0)) (Rmult (3 * INR n) eta64))) /\
  (forall i j, Rle (Rabs (Rminus (Pf i j) (Pe i j)))
      (Rplus (Rplus (Rmult (Rmult (3 * (INR n + 1)) u64) (sizes Phi P i j)) (Rmult u64 (Rabs (Q i j)))) (Rmult (Rmult (5 * INR n) (1 + row_size Phi j)) eta64))).
Proof.
  move=> Hr Hd Hn. exists (Phi *m x), (Phi *m P *m Phi^T + Q). split; first exact: predict_ok. split=> [i|i j]; first exact: state_err. exact: cov_err.
Qed.

Lemma sizes_sym n (Phi P : 'M[R]_n) i j : symmetric P -> sizes Phi P j i = sizes Phi P i j.
Proof.
  move=> S. have E : (sizes Phi P)^T = sizes Phi P by rewrite /sizes !trmx_mul trmxK [(map_mx Rabs P)^T]map_trmx S mulmxA. by rewrite -[in RHS]E [RHS]mxE.
Qed.
Lemma asymmetry r dot n (x : 'cV[R]_n) (P Phi Q : 'M[R]_n) i j : rnd_ok r -> dot_ok dot -> Rle (INR n) 1000000 -> symmetric P -> symmetric Q ->
  let: (_, Pf) := filterPredict_f r dot x P Phi Q in
  Rle (Rabs (Rminus (Pf i j) (Pf j i)))
      (Rplus (Rplus (Rmult (Rmult (6 * (INR n + 1)) u64) (sizes Phi P i j)) (Rmult (2 * u64) (Rabs (Q i j))))
             (Rmult (Rmult (5 * INR n) (2 + row_size Phi i + row_size Phi j)) eta64)).
Proof.
  move=> Hr Hd Hn SP SQ. rewrite [filterPredict_f _ _ _ _ _ _]/filterPredict_f. set Pf := map_mx _ _.
  have A := @cov_err r dot Hr Hd n Hn Phi P Q i j. have B := @cov_err r dot Hr Hd n Hn Phi P Q j i.
  rewrite /filterPredict_f /= -/Pf in A B. rewrite (sizes_sym _ _ _ SP) in B.
  have E : (Phi *m P *m Phi^T + Q) j i = (Phi *m P *m Phi^T + Q) i j.
  { have S : (Phi *m P *m Phi^T + Q)^T = Phi *m P *m Phi^T + Q by rewrite linearD /= !trmx_mul trmxK SP SQ mulmxA. by rewrite -[in LHS]S [LHS]mxE. }
  have Eq : Q j i = Q i j by rewrite -[in RHS]SQ [RHS]mxE.
  rewrite E Eq in B. move: A B. set a := Pf i j. set b := Pf j i. set c := (_ + _ : 'M_n) i j. set z := sizes _ _ _ _. set q := Rabs _.
  move=> A B. have := Rabs_triang (Rminus a c) (Rminus c b). rewrite (_ : Rplus (Rminus a c) (Rminus c b) = Rminus a b); last by ring.
  rewrite (Rabs_minus_sym c b). move=> T. apply: Rle_trans T _. apply: Rle_trans (Rplus_le_compat _ _ _ _ A B) _. toR. lra.
Qed.

(** ** Cases in doubles *)
Lemma rnd64_rnd_ok : rnd_ok rnd64.
Proof. exact: rnd64_model. Qed.
Lemma qf2 (a b c d : R) (x : 'cV[R]_2) : qf (mx2 a b c d) x =
  Rplus (Rmult (Rplus (Rmult (x 0 0) a) (Rmult (x 1 0) c)) (x 0 0)) (Rmult (Rplus (Rmult (x 0 0) b) (Rmult (x 1 0) d)) (x 1 0)).
Proof.
  rewrite /qf mxE !big_ord_recr big_ord0 /= ![(_ *m _) _ _]mxE !big_ord_recr !big_ord0 /= !add0r ![(x^T) _ _]mxE ![mx2 _ _ _ _ _ _]mxE /=.
  rewrite (_ : widen_ord (leqnSn 1) ord_max = 0); last exact: val_inj. by rewrite (_ : ord_max = 1); last exact: val_inj.
Qed.
Lemma psd2 (a b d : R) : (forall x y, Rle 0 (Rplus (Rmult (Rplus (Rmult x a) (Rmult y b)) x) (Rmult (Rplus (Rmult x b) (Rmult y d)) y))) -> psd (mx2 a b b d).
Proof.
  move=> H. split; last by move=> x; rewrite qf2.
  apply/matrixP => i j. rewrite !mxE. by case: (i == 0); case: (j == 0).
Qed.
Lemma mul2 r (a b c d a' b' c' d' : R) : mul_f (@dot_loop r) (mx2 a b c d) (mx2 a' b' c' d') =
  mx2 (dot2 r a a' b c') (dot2 r a b' b d') (dot2 r c a' d c') (dot2 r c b' d d').
Proof.
  apply/matrixP => i j. rewrite !mxE /= !mxE /=.
  by case: (i == 0); case: (j == 0).
Qed.
Lemma tr2 (a b c d : R) : (mx2 a b c d)^T = mx2 a c b d.
Proof. apply/matrixP => i j. rewrite !mxE. by case: (i == 0); case: (j == 0). Qed.

Lemma symmetry_lost :
  ~ (forall (x : 'cV[R]_2) (P Phi Q : 'M[R]_2), psd P -> psd Q -> symmetric (filterPredict_f rnd64 (@dot_loop rnd64) x P Phi Q).2).
Proof.
  move=> H. have P7 : psd (mx2 1 0 0 7) by apply: psd2 => x y; nra.
  have := H 0 (mx2 1 0 0 7) (mx2 0 3 0 g3) 0 P7 (psd0 2). rewrite /symmetric /filterPredict_f /= tr2 !mul2 => /matrixP /(_ 0 1). rewrite !mxE /=.
  rewrite asym_01 asym_10. move=> E. have := Flocq.Core.Raux.bpow_gt_0 Flocq.Core.Zaux.radix2 (BinNums.Zneg 50). lra.
Qed.
Lemma variance_negative :
  ~ (forall (x : 'cV[R]_2) (P Phi Q : 'M[R]_2) i, psd P -> psd Q -> Rle 0 ((filterPredict_f rnd64 (@dot_loop rnd64) x P Phi Q).2 i i)).
Proof.
  move=> H. have P7 : psd (mx2 1 7 7 49). { apply: psd2 => x y. have := Rle_0_sqr (Rplus x (Rmult 7 y)). rewrite /Rsqr. lra. }
  have := H 0 (mx2 1 7 7 49) (mx2 f7 (Ropp g3) 0 0) 0 0 P7 (psd0 2). rewrite /filterPredict_f /= tr2 !mul2 !mxE /=.
  rewrite neg_00. have := Flocq.Core.Raux.bpow_gt_0 Flocq.Core.Zaux.radix2 (BinNums.Zneg 102). lra.
Qed.

Lemma exact_predict n (x x1 : 'cV[R]_n) (P Phi Q P1 : 'M[R]_n) :
  let: (xf, Pf) := filterPredict_f id (fun k a b => \sum_(i < k) a i * b i) x P Phi Q in
  filterPredict (DV x) (DM P) (DM Phi) (DM Q) (DV x1) (DM P1) = Ret (true, (DV xf, DM Pf)).
Proof.
  rewrite /filterPredict_f predict_ok.
  have E m k p (A : 'M[R]_(m, k)) (B : 'M[R]_(k, p)) : mul_f (fun k a b => \sum_(i < k) a i * b i) A B = A *m B by apply/matrixP => i j; rewrite !mxE.
  rewrite !E. have -> : map_mx id (Phi *m P *m Phi^T + Q) = Phi *m P *m Phi^T + Q by apply/matrixP => i j; rewrite [LHS]mxE. by [].
Qed.

Lemma unit_step : exists xe Pe,
  filterPredict (DV (0 : 'cV[R]_2)) (DM (1%:M : 'M[R]_2)) (DM (mx2 1 1 0 1)) (DM (0 : 'M[R]_2)) (DV (0 : 'cV[R]_2)) (DM (0 : 'M[R]_2)) = Ret (true, (DV (xe : 'cV[R]_2), DM (Pe : 'M[R]_2))) /\
  Pe 0 0 = IZR 2 /\
  Rle (Rabs (Rminus ((filterPredict_f rnd64 (@dot_loop rnd64) (0 : 'cV[R]_2) 1%:M (mx2 1 1 0 1) 0).2 0 0) (Pe 0 0)))
      (Rplus (Rmult 18 u64) (Rmult 30 eta64)).
Proof.
  do 2 eexists. split; [exact: predict_ok|split].
  - rewrite !mulmx1 tr2 !mxE !big_ord_recr big_ord0 /= !mxE /=. toR. lra.
  - have N2 : Rle (INR 2) 1000000 by rewrite /=; lra.
    have := @cov_err rnd64 _ rnd64_rnd_ok (dot_loop_ok rnd64_rnd_ok) 2 N2 (mx2 1 1 0 1) 1%:M 0 0 0.
    have -> : sizes (mx2 1 1 0 1) 1%:M 0 0 = IZR 2.
    { rewrite sizes_sum !big_ord_recr big_ord0 /= !mxE !big_ord_recr !big_ord0 /= !mxE /=. toR. rewrite !Rabs_R1 !Rabs_R0. lra. }
    have -> : row_size (mx2 1 1 0 1) 0 = IZR 2.
    { rewrite /row_size !big_ord_recr big_ord0 /= !mxE /=. toR. rewrite !Rabs_R1. lra. }
    rewrite [(0 : 'M_2) 0 0]mxE /=. toR. rewrite Rabs_R0. move=> H. apply: Rle_trans H _. apply: Req_le. ring.
Qed.
