(** Matrix algebra over the reals used by the filter proofs. *)
From Coq Require Import Reals Lra.
From mathcomp Require Import all_ssreflect all_algebra.
From Verif Require Import BaseMx SpecKalman.
Set Implicit Arguments.
Unset Strict Implicit.
Unset Printing Implicit Defensive.
Import GRing.Theory.
Local Open Scope ring_scope.

(** ** Reals *)
Lemma addR (x y : R) : x + y = Rplus x y. Proof. by []. Qed.
Lemma mulR (x y : R) : x * y = Rmult x y. Proof. by []. Qed.
Lemma oppR (x : R) : - x = Ropp x. Proof. by []. Qed.
Lemma oneR : (1 : R) = R1. Proof. by []. Qed.
Lemma zeroR : (0 : R) = R0. Proof. by []. Qed.

Ltac toR :=
  repeat match goal with
  | |- context [@GRing.add ?z] => progress change (@GRing.add z) with Rplus
  | |- context [@GRing.opp ?z] => progress change (@GRing.opp z) with Ropp
  | |- context [@GRing.mul ?z] => progress change (@GRing.mul z) with Rmult
  | |- context [GRing.zero ?z] => progress change (GRing.zero z) with R0
  | |- context [GRing.one ?z] => progress change (GRing.one z) with R1
  | H : context [@GRing.add ?z] |- _ => progress change (@GRing.add z) with Rplus in H
  | H : context [@GRing.opp ?z] |- _ => progress change (@GRing.opp z) with Ropp in H
  | H : context [@GRing.mul ?z] |- _ => progress change (@GRing.mul z) with Rmult in H
  | H : context [GRing.zero ?z] |- _ => progress change (GRing.zero z) with R0 in H
  | H : context [GRing.one ?z] |- _ => progress change (GRing.one z) with R1 in H
  end.
Ltac rlra := intros; toR; lra.

Lemma le0_sum (I : finType) (f : I -> R) : (forall i, Rle 0 (f i)) -> Rle 0 (\sum_i f i).
Proof.
  move=> H; elim/big_ind: _ => [|x y Hx Hy|i _] //; first exact: Rle_refl.
  exact: Rplus_le_le_0_compat.
Qed.
Lemma sum_eq0_le (I : finType) (f : I -> R) : (forall i, Rle 0 (f i)) -> \sum_i f i = 0 -> forall i, f i = 0.
Proof.
  move=> H E i. apply: Rle_antisym (H i).
  move: E. rewrite (bigD1 i) //=. set S := (X in _ + X = _) => E.
  have P : Rle 0 S.
  { rewrite /S. elim/big_ind: _ => [|x y Hx Hy|j _] //; first exact: Rle_refl. exact: Rplus_le_le_0_compat. }
  clearbody S. rlra.
Qed.

(** ** Scalars as 1x1 matrices *)
Lemma tr11 (A : 'M[R]_1) : A^T = A.
Proof. by apply/matrixP=> i j; rewrite mxE !ord1. Qed.

(** ** Quadratic forms *)
Section Qf.
Variables (n : nat).
Implicit Types (A B : 'M[R]_n) (x y : 'cV[R]_n).

Lemma qfD A B x : qf (A + B) x = Rplus (qf A x) (qf B x).
Proof. by rewrite /qf mulmxDr mulmxDl mxE. Qed.
Lemma qfN A x : qf (- A) x = Ropp (qf A x).
Proof. by rewrite /qf mulmxN mulNmx mxE. Qed.
Lemma qfB A B x : qf (A - B) x = Rminus (qf A x) (qf B x).
Proof. by rewrite qfD qfN. Qed.
Lemma qfZ (k : R) A x : qf (k *: A) x = Rmult k (qf A x).
Proof. by rewrite /qf -scalemxAr -scalemxAl mxE. Qed.
Lemma qf0 x : qf (0 : 'M[R]_n) x = R0.
Proof. by rewrite /qf mulmx0 mul0mx mxE. Qed.
Lemma qf_sum (I : finType) (F : I -> 'M[R]_n) x : qf (\sum_i F i) x = \sum_i qf (F i) x.
Proof. by elim/big_rec2: _ => [|i y z _ E]; rewrite ?qf0 // qfD E. Qed.
Lemma qf_x0 A : qf A 0 = R0.
Proof. by rewrite /qf mulmx0 mxE. Qed.
Lemma qf_1 x : qf 1%:M x = \sum_i x i 0 * x i 0.
Proof. rewrite /qf mulmx1 mxE. by apply: eq_bigr => i _; rewrite mxE. Qed.
Lemma qf_1_ge0 x : Rle 0 (qf 1%:M x).
Proof. rewrite qf_1. apply: le0_sum => i. exact: Rle_0_sqr. Qed.
Lemma qf_1_eq0 x : qf 1%:M x = 0 -> x = 0.
Proof.
  rewrite qf_1 => E. apply/matrixP => i j. rewrite ord1 mxE.
  have := @sum_eq0_le _ (fun i => x i 0 * x i 0) (fun i => Rle_0_sqr _) E i. move=> /eqP. by rewrite mulf_eq0 orbb => /eqP.
Qed.
Lemma pd1 : pd (1%:M : 'M[R]_n).
Proof.
  split; first exact: trmx1. move=> x /eqP H. case: (Rle_lt_or_eq_dec _ _ (qf_1_ge0 x)) => // E. by case: H; apply: qf_1_eq0.
Qed.

Lemma pd_psd A : pd A -> psd A.
Proof.
  move=> [S H]; split=> // x. case: (eqVneq x 0) => [->|/H]; first by rewrite qf_x0; apply: Rle_refl. exact: Rlt_le.
Qed.
Lemma psdD A B : psd A -> psd B -> psd (A + B).
Proof.
  move=> [SA HA] [SB HB]; split; first by rewrite /symmetric linearD /= SA SB.
  move=> x; rewrite qfD. exact: Rplus_le_le_0_compat.
Qed.
Lemma psd_pd A B : psd A -> pd B -> pd (A + B).
Proof.
  move=> [SA HA] [SB HB]; split; first by rewrite /symmetric linearD /= SA SB.
  move=> x /HB Hx; rewrite qfD. have := HA x. rlra.
Qed.
Lemma psd0 : psd (0 : 'M[R]_n).
Proof. split; first exact: trmx0. move=> x; rewrite qf0; exact: Rle_refl. Qed.
Lemma psdZ (k : R) A : Rle 0 k -> psd A -> psd (k *: A).
Proof.
  move=> Hk [SA HA]; split; first by rewrite /symmetric linearZ /= SA.
  move=> x; rewrite qfZ. exact: Rmult_le_pos.
Qed.
Lemma psd_sum (I : finType) (F : I -> 'M[R]_n) : (forall i, psd (F i)) -> psd (\sum_i F i).
Proof. move=> H; elim/big_ind: _ => [|*|//]; [exact: psd0|exact: psdD]. Qed.

Lemma loewner_refl A : loewner A A.
Proof. move=> x; exact: Rle_refl. Qed.
Lemma loewner_trans A B C : loewner A B -> loewner B C -> loewner A C.
Proof. move=> H1 H2 x; exact: Rle_trans (H1 x) (H2 x). Qed.
Lemma loewner_add A B : psd B -> loewner A (A + B).
Proof. move=> [_ H] x. rewrite qfD. have := H x. rlra. Qed.

(** A symmetric matrix is determined by its quadratic form. *)
Lemma bilin_sym A x y : symmetric A -> (x^T *m A *m y) 0 0 = (y^T *m A *m x) 0 0.
Proof. move=> S. by rewrite -[x^T *m A *m y]tr11 !trmx_mul trmxK S mulmxA. Qed.
Lemma qf_add A x y : symmetric A -> qf A (x + y) = qf A x + qf A y + (x^T *m A *m y) 0 0 *+ 2.
Proof.
  move=> S. rewrite /qf [(x + y)^T]linearD /= !mulmxDl !mulmxDr. do !rewrite [(_ + _ : 'M_(_, _)) 0 0]mxE.
  have -> : (y^T *m A *m x) 0 0 = (x^T *m A *m y) 0 0 by apply: bilin_sym.
  by rewrite mulr2n [X in _ + _ + X]addrC addrACA.
Qed.
End Qf.

Lemma qf_congr n m (A : 'M[R]_n) (B : 'M[R]_(m, n)) x : qf (B *m A *m B^T) x = qf A (B^T *m x).
Proof. by rewrite /qf trmx_mul trmxK !mulmxA. Qed.
Lemma psd_congr n m (A : 'M[R]_n) (B : 'M[R]_(m, n)) : psd A -> psd (B *m A *m B^T).
Proof.
  move=> [S H]; split; first by rewrite /symmetric !trmx_mul trmxK S mulmxA.
  move=> x; rewrite qf_congr; exact: H.
Qed.
Lemma psd_outer n (v : 'cV[R]_n) : psd (v *m v^T).
Proof.
  have -> : v *m v^T = v *m 1%:M *m v^T by rewrite mulmx1. apply: psd_congr. exact: pd_psd (pd1 1).
Qed.
Lemma loewner_congr n m (A C : 'M[R]_n) (B : 'M[R]_(m, n)) : loewner A C -> loewner (B *m A *m B^T) (B *m C *m B^T).
Proof. move=> H x; rewrite !qf_congr; exact: H. Qed.

(** ** Invertibility *)
Lemma nonunit_kernel n (A : 'M[R]_n) : A \notin unitmx -> exists2 v : 'rV[R]_n, v != 0 & v *m A = 0.
Proof.
  rewrite -row_free_unit -kermx_eq0 => H.
  case/rowV0Pn: H => v Hs Hv. exists v => //. by apply/eqP; rewrite -sub_kermx.
Qed.
Lemma pd_unit n (A : 'M[R]_n) : pd A -> A \in unitmx.
Proof.
  move=> [S H]. case: (boolP (A \in unitmx)) => // /nonunit_kernel [v Hv E]; exfalso.
  have : Rlt 0 (qf A v^T). { apply: H. by rewrite trmx_eq0. }
  rewrite /qf trmxK E mul0mx mxE. exact: Rlt_irrefl.
Qed.

(** For positive semidefinite A, x^T A x = 0 only where A x = 0. *)
Lemma psd_null n (A : 'M[R]_n) x : psd A -> qf A x = 0 -> A *m x = 0.
Proof.
  move=> [S H] E. set y := A *m x.
  (* 0 <= qf (x + t (-y)) = 2 t' ... *)
  have Hyy : (x^T *m A *m y) 0 0 = qf 1%:M y.
  { rewrite /qf mulmx1 /y trmx_mul S !mulmxA. by []. }
  have P (t : R) : Rle 0 (Rplus (Rmult (Rmult t t) (qf A y)) (Rmult 2 (Rmult t (qf 1%:M y)))).
  { have := H (x + t *: y). rewrite qf_add // E add0r -scalemxAr mxE Hyy.
    have -> : qf A (t *: y) = Rmult (Rmult t t) (qf A y).
    { by rewrite /qf [(t *: y)^T]linearZ /= -!scalemxAl -scalemxAr scalerA mxE. }
    rewrite mulr2n !addR !mulR => Q. rlra. }
  apply: qf_1_eq0. rewrite zeroR. have G := qf_1_ge0 y. have Ha := H y.
  set a := qf A y in P Ha *. set b := qf 1%:M y in P G *.
  case: (Rle_lt_or_eq_dec _ _ G) => [Hb|<-] //; exfalso. change (Rlt R0 b) in Hb. change (Rle R0 a) in Ha.
  (* t = - b / (a + 1) *)
  have := P (Ropp (Rdiv b (Rplus a 1))). 
  have Hp : Rlt 0 (Rplus a 1) by rlra.
  have -> : Rplus (Rmult (Rmult (Ropp (Rdiv b (Rplus a 1))) (Ropp (Rdiv b (Rplus a 1)))) a) (Rmult 2 (Rmult (Ropp (Rdiv b (Rplus a 1))) b))
     = Ropp (Rdiv (Rmult (Rmult b b) (Rplus a 2)) (Rmult (Rplus a 1) (Rplus a 1))) by field; rlra.
  have : Rlt 0 (Rdiv (Rmult (Rmult b b) (Rplus a 2)) (Rmult (Rplus a 1) (Rplus a 1))).
  { apply: Rdiv_lt_0_compat; repeat apply: Rmult_lt_0_compat; rlra. }
  rlra.
Qed.
Lemma psd_unit_pd n (A : 'M[R]_n) : psd A -> A \in unitmx -> pd A.
Proof.
  move=> H U; split; first by case: H. move=> x Hx. case: H => S H.
  case: (Rle_lt_or_eq_dec _ _ (H x)) => // E. exfalso. move/eqP: Hx; apply.
  have Z : A *m x = 0 by apply: psd_null.
  by rewrite -[x]mul1mx -(mulVmx U) -mulmxA Z mulmx0.
Qed.
Lemma inv_sym n (A : 'M[R]_n) : symmetric A -> symmetric (invmx A).
Proof. by move=> S; rewrite /symmetric trmx_inv S. Qed.
Lemma pd_inv n (A : 'M[R]_n) : pd A -> pd (invmx A).
Proof.
  move=> H. have U := pd_unit H. case: (H) => S P. split; first exact: inv_sym.
  move=> x Hx. have -> : qf (invmx A) x = qf A (invmx A *m x).
  { rewrite /qf trmx_mul inv_sym // !mulmxA mulmxKV //. }
  apply: P. apply/eqP => E. move/eqP: Hx; apply. by rewrite -[x]mul1mx -(mulmxV U) -mulmxA E mulmx0.
Qed.

(** Equations between sums of matrices, products being atoms. *)
Ltac mx_abel :=
  repeat match goal with |- context [@mulmx ?R ?m ?n ?p ?A ?B] =>
    let x := fresh "x" in set x := @mulmx R m n p A B; clearbody x end;
  repeat match goal with |- context [@trmx ?R ?m ?n ?A] =>
    let x := fresh "x" in set x := @trmx R m n A; clearbody x end;
  let i := fresh "i" in let j := fresh "j" in
  apply/matrixP => i j; rewrite ?mxE;
  repeat match goal with |- context [@fun_of_matrix ?R ?m ?n ?A ?k ?l] =>
    let x := fresh "x" in set x := (@fun_of_matrix R m n A k l : Rdefinitions.R); change Rdefinitions.R in (type of x); clearbody x end;
  match goal with |- @eq _ ?a ?b => change (@eq R a b) end;
  repeat match goal with
  | |- context [@GRing.add ?z] => progress change (@GRing.add z) with Rplus
  | |- context [@GRing.opp ?z] => progress change (@GRing.opp z) with Ropp
  | |- context [@GRing.mul ?z] => progress change (@GRing.mul z) with Rmult
  | |- context [GRing.zero ?z] => progress change (GRing.zero z) with R0 end; ring.
