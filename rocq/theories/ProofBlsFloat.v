(** Rounding errors of least squares. *)
From Coq Require Import Reals Lra Psatz.
From mathcomp Require Import all_ssreflect all_algebra.
From Verif Require Import Base BaseMx ModelFilterFloat ModelBlsFloat SpecFloatOps SpecKalman SpecFilter SpecBls SpecFilterFloat SpecUpdateFloat SpecBlsFloat
  ProofMx ProofKalman ProofKalman2 ProofKalman3 ProofBls ProofFilterFloat ProofUpdateFloat ProofLopsided ProofLongFloat.
Set Implicit Arguments.
Unset Strict Implicit.
Unset Printing Implicit Defensive.
Import GRing.Theory.
Local Open Scope ring_scope.

(** ** Perturbed systems *)
Section Core.
Variables (n : nat) (d : 'I_n -> R).
Definition wsum (z : 'cV[R]_n) : R := \sum_i Rabs (Rmult (d i) (z i 0)).
Lemma wsum_ge0 z : Rle 0 (wsum z).
Proof. apply: sum_ge0 => i. exact: Rabs_pos. Qed.
Lemma mul_sq (a b : R) : Rmult (Rmult a b) (Rmult a b) = Rmult (Rmult a a) (Rmult b b).
Proof. ring. Qed.
Lemma wsum_sq z : Rle (Rmult (wsum z) (wsum z)) (Rmult (INR n) (\sum_i Rmult (Rmult (d i) (d i)) (Rmult (z i 0) (z i 0)))).
Proof.
  have C := cauchy (\col_i Rmult (d i) (z i 0)). rewrite sq_qf /sq in C.
  have E1 : \sum_i Rabs ((\col_i Rmult (d i) (z i 0) : 'cV[R]_n) i 0) = wsum z by apply: eq_bigr => i _; rewrite mxE.
  have E2 : \sum_i (\col_i Rmult (d i) (z i 0) : 'cV[R]_n) i 0 * (\col_i Rmult (d i) (z i 0) : 'cV[R]_n) i 0 = \sum_i Rmult (Rmult (d i) (d i)) (Rmult (z i 0) (z i 0)).
  { apply: eq_bigr => i _. rewrite !mxE. exact: mul_sq. }
  by rewrite E1 E2 in C.
Qed.
Lemma wform (E : 'M[R]_n) e (w g : 'cV[R]_n) : (forall i, Rle 0 (d i)) -> (forall i j, Rle (Rabs (E i j)) (Rmult e (Rmult (d i) (d j)))) ->
  Rle (Rabs ((w^T *m E *m g) 0 0)) (Rmult e (Rmult (wsum w) (wsum g))).
Proof.
  move=> D H. rewrite mxE. apply: Rle_trans (sum_abs _) _. rewrite /wsum sum_scale sum_scale. apply: sum_le => j.
  toR. rewrite !Rabs_mult (Rabs_right (d j)); last exact: Rle_ge.
  have -> : forall a b c, Rmult e (Rmult a (Rmult b c)) = Rmult (Rmult (Rmult e b) a) c by move=> a b c; ring.
  apply: Rmult_le_compat_r; first exact: Rabs_pos.
  rewrite mxE. apply: Rle_trans (sum_abs _) _. rewrite sum_scale. apply: sum_le => i. rewrite mxE. toR. rewrite !Rabs_mult (Rabs_right (d i)); last exact: Rle_ge.
  have := H i j. have := Rabs_pos (w i 0). move: (Rabs (w i 0)) (Rabs (E i j)) => a b A B. have := Rmult_le_compat_r _ _ _ A B. lra.
Qed.
Lemma wlin (f w : 'cV[R]_n) e : (forall i, Rle 0 (d i)) -> (forall i, Rle (Rabs (f i 0)) (Rmult e (d i))) ->
  Rle (Rabs ((w^T *m f) 0 0)) (Rmult e (wsum w)).
Proof.
  move=> D H. rewrite mxE. apply: Rle_trans (sum_abs _) _. rewrite /wsum sum_scale. apply: sum_le => i.
  rewrite mxE. toR. rewrite !Rabs_mult (Rabs_right (d i)); last exact: Rle_ge.
  have := H i. have := Rabs_pos (w i 0). move: (Rabs (w i 0)) (Rabs (f i 0)) => a b A B. have := Rmult_le_compat_r _ _ _ A B. lra.
Qed.
End Core.

Lemma core_scal q S Sx e g c s Y : Rle 0 e -> Rle 0 g -> Rle g e -> (c = 0 \/ Rle 1 c) -> Rle (Rmult e c) (Rdiv 1 2) -> Rle 0 s -> q = Rmult s s -> Rle 0 Y -> Rle 0 S -> Rle 0 Sx ->
  Rle (Rmult S S) (Rmult c q) -> Rle (Rmult Sx Sx) (Rmult c (Rmult Y Y)) ->
  Rle q (Rplus (Rplus (Rmult e (Rmult S S)) (Rmult (Rmult g Y) S)) (Rmult e (Rmult S Sx))) -> Rle s (Rmult (Rmult 4 (Rmult e c)) Y).
Proof.
  move=> E0 G0 GE C EC S0 -> Y0 SS SX H1 H2 H3. toR.
  have P1 : Rle (Rmult S Sx) (Rmult c (Rmult s Y)).
  { apply: Rsqr_incr_0_var; last by apply: Rmult_le_pos; [case: C => [->|C]; toR; lra|apply: Rmult_le_pos].
    rewrite /Rsqr. have := Rmult_le_compat _ _ _ _ (Rle_0_sqr S) (Rle_0_sqr Sx) H1 H2. rewrite /Rsqr. lra. }
  have P2 : Rle S (Rmult c s).
  { apply: Rsqr_incr_0_var; last by apply: Rmult_le_pos => //; case: C => [->|C]; toR; lra.
    rewrite /Rsqr. apply: Rle_trans H1 _. case: C => [->|C]; toR; first lra. have : Rle 0 (Rmult s s) by exact: Rle_0_sqr. nra. }
  have K1 := Rmult_le_compat_l _ _ _ E0 P1. have K2 := Rmult_le_compat_l _ _ _ (Rmult_le_pos _ _ G0 Y0) P2. have K3 := Rmult_le_compat_l _ _ _ E0 H1.
  have c0 : Rle 0 c by case: C => [->|C]; toR; lra.
  have K4 : Rle (Rmult (Rmult g Y) (Rmult c s)) (Rmult (Rmult e Y) (Rmult c s)).
  { apply: Rmult_le_compat_r; first exact: Rmult_le_pos. exact: Rmult_le_compat_r. }
  have K5 : Rle (Rmult e (Rmult c (Rmult s s))) (Rmult (Rdiv 1 2) (Rmult s s)).
  { rewrite -Rmult_assoc. apply: Rmult_le_compat_r => //. exact: Rle_0_sqr. }
  have K6 : Rle (Rmult s s) (Rmult (Rmult (Rmult 4 (Rmult e c)) Y) s) by lra.
  case: S0 => [S0|<-]; last by apply: Rmult_le_pos => //; apply: Rmult_le_pos; [lra|exact: Rmult_le_pos].
  exact: Rmult_le_reg_r K6.
Qed.

Lemma perturbed n (d : 'I_n -> R) (A E : 'M[R]_n) (x xf b f : 'cV[R]_n) l e g Y :
  (forall i, Rle 0 (d i)) -> Rlt 0 l -> Rle l 1 -> (forall z : 'cV[R]_n, Rle (Rmult l (\sum_i Rmult (Rmult (d i) (d i)) (Rmult (z i 0) (z i 0)))) (qf A z)) ->
  Rle 0 g -> Rle g e -> Rle (Rmult (Rmult 2 (INR n)) e) l -> Rle 0 Y ->
  (forall i j, Rle (Rabs (E i j)) (Rmult e (Rmult (d i) (d j)))) -> (forall i, Rle (Rabs (f i 0)) (Rmult (Rmult g Y) (d i))) ->
  A *m x = b -> (A + E) *m xf = b + f -> Rle (qf A x) (Rmult Y Y) ->
  Rle (sqrt (qf A (xf - x))) (Rmult (Rmult 4 (Rmult e (Rdiv (INR n) l))) Y).
Proof.
  move=> D L L1 HA G0 GE EN Y0 HE Hf Ex Exf HY. set dl := xf - x. have e0 : Rle 0 e by lra.
  have sum0 (z : 'cV[R]_n) : Rle 0 (\sum_i Rmult (Rmult (d i) (d i)) (Rmult (z i 0) (z i 0))).
  { apply: sum_ge0 => i. apply: Rmult_le_pos; exact: Rle_0_sqr. }
  have q0 z : Rle 0 (qf A z) by apply: Rle_trans (HA z); apply: Rmult_le_pos; [lra|exact: sum0].
  have key : (A + E) *m dl = f - E *m x.
  { rewrite /dl mulmxBr Exf mulmxDl Ex. mx_abel. }
  clearbody dl.
  have W z : Rle (Rmult (wsum d z) (wsum d z)) (Rmult (Rdiv (INR n) l) (qf A z)).
  { apply: Rle_trans (wsum_sq d z) _. have := HA z. have := pos_INR n. move: (\sum_i _) (qf A z) (INR n) => a b' c C B.
    have -> : Rmult (Rdiv c l) b' = Rmult c (Rdiv b' l) by rewrite /Rdiv; ring. apply: Rmult_le_compat_l => //.
    apply: (Rmult_le_reg_l l) => //. have -> : Rmult l (Rdiv b' l) = b' by field; lra. exact: B. }
  apply: (@core_scal (qf A dl) (wsum d dl) (wsum d x) e g) => //; try exact: wsum_ge0.
  - case: n {d A E x xf b f D HA HE Hf Ex Exf HY dl sum0 q0 key W} EN => [|k] EN; first by left; rewrite /= /Rdiv Rmult_0_l.
    right. apply: (Rmult_le_reg_r l) => //. have -> : Rmult (Rdiv (INR k.+1) l) l = INR k.+1 by field; lra. rewrite S_INR. have := pos_INR k. lra.
  - apply: (Rmult_le_reg_r l) => //. have -> : Rmult (Rmult e (Rdiv (INR n) l)) l = Rmult e (INR n) by field; lra. lra.
  - exact: sqrt_pos.
  - by rewrite sqrt_sqrt.
  - apply: Rle_trans (W x) _. apply: Rmult_le_compat_l => //. apply: Rmult_le_pos; [exact: pos_INR|apply: Rlt_le; exact: Rinv_0_lt_compat].
  - have Q : qf A dl = Rminus (Rminus ((dl^T *m f) 0 0) ((dl^T *m E *m x) 0 0)) ((dl^T *m E *m dl) 0 0).
    { have : (dl^T *m ((A + E) *m dl)) 0 0 = (dl^T *m (f - E *m x)) 0 0 by rewrite key.
      rewrite mulmxBr mulmxDl mulmxDr !mulmxA.
      rewrite [LHS]mxE [RHS]mxE [X in _ = _ + X]mxE -/(qf A dl). move: (qf A dl) ((dl^T *m E *m dl) 0 0) ((dl^T *m f) 0 0) ((dl^T *m E *m x) 0 0) => q a b' c. toR => K. lra. }
    have F1 := wform dl x D HE. have F2 := wform dl dl D HE. have F3 := @wlin n d f dl (Rmult g Y) D Hf.
    rewrite Q. move: F1 F2 F3. move: ((dl^T *m E *m dl) 0 0) ((dl^T *m f) 0 0) ((dl^T *m E *m x) 0 0) => a b' c F1 F2 F3.
    move/Rcomplements.Rabs_le_between: F1. move/Rcomplements.Rabs_le_between: F2. move/Rcomplements.Rabs_le_between: F3. lra.
Qed.

(** ** Least squares *)
Lemma apart_full n l (A : 'M[R]_n) (d : 'cV[R]_n) i : Rlt 0 l -> (forall i, Rle 0 (A i i)) -> apart l A -> Rle (Rmult (Rmult l (A i i)) (Rmult (d i 0) (d i 0))) (qf A d).
Proof.
  move=> L A0 H. apply: Rle_trans (H d). rewrite Rmult_assoc. apply: Rmult_le_compat_l; first lra. rewrite (bigD1 i) //=.
  set S := (X in Rle _ (_ + X)). have : Rle 0 S.
  { rewrite /S. elim/big_ind: _ => [|a b Ha Hb|j _]; [exact: Rle_refl|exact: Rplus_le_le_0_compat|]. apply: Rmult_le_pos; [exact: A0|exact: Rle_0_sqr]. }
  clearbody S. move: (Rmult (A i i) _) => t. toR => T. lra.
Qed.
Lemma lower_near n (A Af : 'M[R]_n) (B : 'I_n -> 'I_n -> R) : symmetric A -> (forall i j, B i j = B j i) -> (forall i j, Rle (Rabs (Rminus (Af i j) (A i j))) (B i j)) ->
  forall i j, Rle (Rabs (Rminus (lower Af i j) (A i j))) (B i j).
Proof.
  move=> SA SB H i j. rewrite mxE. case: (j <= i)%N; first exact: H. rewrite SB.
  have -> : A i j = A j i by rewrite -[in LHS]SA mxE. exact: H.
Qed.
Section Ls.
Variables (m n : nat) (W : 'M[R]_m) (H : 'M[R]_(m, n)) (y : 'cV[R]_m).
Let A := H^T *m W *m H.
Let d i := sqrt (A i i).
Lemma diag_sq i : psd W -> Rmult (d i) (d i) = A i i.
Proof.
  move=> HW. apply: sqrt_sqrt. have := proj2 (psd_congrT H HW) (delta_mx i 0). by rewrite /qf delta_entry.
Qed.
Lemma ls_core_size (Af : 'M[R]_n) (bf x xf : 'cV[R]_n) s k l Y :
  psd W -> Rlt 0 l -> Rle l 1 -> apart l A -> Rle 0 s -> Rle 0 k ->
  (forall i j, Rle (Rabs (Rminus (Af i j) (A i j))) (Rmult k (Rmult (d i) (d j)))) ->
  Rle (sqrt (qf W y)) Y ->
  (forall i, Rle (Rabs (Rminus (bf i 0) ((H^T *m W *m y) i 0))) (Rmult (Rmult k Y) (d i))) ->
  solved s Af bf xf -> A *m x = H^T *m W *m y -> Rle (Rmult (Rmult 2 (INR n)) (Rplus (Rmult 2 s) k)) l ->
  Rle (sqrt (qf A (xf - x))) (Rmult (Rmult 4 (Rmult (Rplus (Rmult 2 s) k) (Rdiv (INR n) l))) Y).
Proof.
  move=> HW L L1 HA S0 K0 HAf HY Hbf [E [HE Exf]] Ex EN. have HAp : psd A := psd_congrT H HW.
  have D0 i : Rle 0 (d i) by exact: sqrt_pos.
  have k1 (i : 'I_n) : Rle k 1.
  { have N1 : Rle 1 (INR n) by exact: (INR_ge1 i). have : Rle k (Rmult (Rmult 2 (INR n)) (Rplus (Rmult 2 s) k)); [|lra].
    have : Rle (Rmult 1 k) (Rmult (Rmult 2 (INR n)) k); [apply: Rmult_le_compat_r; lra|]. have : Rle 0 (Rmult (Rmult 2 (INR n)) (Rmult 2 s)); [apply: Rmult_le_pos; lra|].
    rewrite Rmult_plus_distr_l. lra. }
  have sq2 i : Rle (sqrt (Af i i)) (Rmult (sqrt 2) (d i)).
  { rewrite /d -sqrt_mult_alt; last lra. apply: sqrt_le_1_alt. have := HAf i i. rewrite diag_sq // => /Rcomplements.Rabs_le_between [_].
    have := diag_sq i HW. have := Rle_0_sqr (d i). rewrite /Rsqr => Z Z2. have := k1 i. move: (Af i i) Z. rewrite Z2. move: (A i i) => a af Z K Q.
    have := Rmult_le_compat_r _ _ _ Z K. lra. }
  have s22 : Rmult (sqrt 2) (sqrt 2) = IZR 2 by apply: sqrt_sqrt; lra.
  apply: (@perturbed n d A (lower Af - A + E) x xf (H^T *m W *m y) (bf - H^T *m W *m y) l (Rplus (Rmult 2 s) k) k Y) => //.
  - move=> z. apply: Rle_trans (HA z). apply: Rmult_le_compat_l; first lra. right. apply: eq_bigr => i _. by rewrite diag_sq.
  - lra.
  - apply: Rle_trans HY. exact: sqrt_pos.
  - move=> i j. rewrite [(lower Af - A + E) i j]mxE [(lower Af - A) i j]mxE [(- A) i j]mxE. apply: Rle_trans (Rabs_triang _ _) _.
    have L1' := @lower_near n A Af (fun i j => Rmult k (Rmult (d i) (d j))) (proj1 HAp) (fun i j => f_equal _ (Rmult_comm _ _)) HAf i j.
    have L2 : Rle (Rabs (E i j)) (Rmult (Rmult 2 s) (Rmult (d i) (d j))).
    { apply: Rle_trans (HE i j) _. rewrite -s22. have -> : Rmult (Rmult (Rmult (sqrt 2) (sqrt 2)) s) (Rmult (d i) (d j)) = Rmult s (Rmult (Rmult (sqrt 2) (d i)) (Rmult (sqrt 2) (d j))) by ring.
      apply: Rmult_le_compat_l => //. apply: Rmult_le_compat; try exact: sqrt_pos; exact: sq2. }
    rewrite Rmult_plus_distr_r Rplus_comm. exact: Rplus_le_compat.
  - move=> i. rewrite mxE [X in _ + X]mxE. exact: Hbf.
  - have -> : A + (lower Af - A + E) = lower Af + E by mx_abel. rewrite Exf. mx_abel.
  - apply: (Rle_trans _ (Rmult (sqrt (qf W y)) (sqrt (qf W y)))); last by apply: Rmult_le_compat => //; exact: sqrt_pos.
    rewrite sqrt_sqrt; last exact: (proj2 HW). have := normal_split 0 (proj1 HW) Ex. rewrite mulmx0 subr0 => ->.
    have -> : qf A (0 - x) = qf A x by rewrite sub0r; have trN : (- x)^T = - x^T by [exact: linearN]; rewrite /qf trN !mulNmx mulmxN opprK.
    have := proj2 HW (y - H *m x). move: (qf W (y - H *m x)) (qf A x) => a b. toR. lra.
Qed.
Lemma ls_core (Af : 'M[R]_n) (bf x xf : 'cV[R]_n) s k l :
  psd W -> Rlt 0 l -> Rle l 1 -> apart l A -> Rle 0 s -> Rle 0 k ->
  (forall i j, Rle (Rabs (Rminus (Af i j) (A i j))) (Rmult k (Rmult (d i) (d j)))) ->
  (forall i, Rle (Rabs (Rminus (bf i 0) ((H^T *m W *m y) i 0))) (Rmult (Rmult k (sqrt (qf W y))) (d i))) ->
  solved s Af bf xf -> A *m x = H^T *m W *m y -> Rle (Rmult (Rmult 2 (INR n)) (Rplus (Rmult 2 s) k)) l ->
  Rle (sqrt (qf A (xf - x))) (Rmult (Rmult 4 (Rmult (Rplus (Rmult 2 s) k) (Rdiv (INR n) l))) (sqrt (qf W y))).
Proof. move=> HW L L1 HA S0 K0 HAf Hbf HS Ex EN. exact: (ls_core_size HW L L1 HA S0 K0 HAf (Rle_refl _) Hbf HS Ex EN). Qed.
End Ls.
