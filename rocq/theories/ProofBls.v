(** Proofs about least squares. *)
From Coq Require Import Reals Lra.
From mathcomp Require Import all_ssreflect all_algebra.
From Verif Require Import Base BaseMx ModelEigen ModelKalman ModelBls SpecKalman SpecFilter SpecBls ProofMx ProofKalman ProofKalman2 ProofKalman3.
Set Implicit Arguments.
Unset Strict Implicit.
Unset Printing Implicit Defensive.
Import GRing.Theory.
Local Open Scope ring_scope.
Local Open Scope outcome_scope.

(** ** Normal equations *)
Lemma sq_qf n (v : 'cV[R]_n) : qf 1%:M v = sq v.
Proof. exact: qf_1. Qed.
Lemma dot_sq n (v : 'cV[R]_n) : (v^T *m v) 0 0 = sq v.
Proof. rewrite -sq_qf /qf mulmx1. by []. Qed.
Lemma normv_len n (v : 'cV[R]_n) : normv (DV v) = len v.
Proof. by rewrite /normv /= dot_sq. Qed.

Lemma normal_split m n (W : 'M[R]_m) (H : 'M[R]_(m, n)) (y : 'cV[R]_m) (x v : 'cV[R]_n) :
  symmetric W -> H^T *m W *m H *m x = H^T *m W *m y ->
  qf W (y - H *m v) = qf W (y - H *m x) + qf (H^T *m W *m H) (v - x).
Proof.
  move=> SW E. have -> : y - H *m v = (y - H *m x) + - (H *m (v - x)) by rewrite mulmxBr; mx_abel.
  rewrite (qf_add (y - H *m x) (- (H *m (v - x))) SW).
  have trN : (- (H *m (v - x)))^T = - (H *m (v - x))^T by exact: linearN.
  have -> : qf W (- (H *m (v - x))) = qf (H^T *m W *m H) (v - x).
  { by rewrite /qf trN !mulNmx mulmxN opprK trmx_mul !mulmxA. }
  have -> : ((y - H *m x)^T *m W *m - (H *m (v - x))) 0 0 = 0.
  { rewrite (bilin_sym _ _ SW) trN !mulNmx trmx_mul.
    have -> : (v - x)^T *m H^T *m W *m (y - H *m x) = (v - x)^T *m (H^T *m W *m y - H^T *m W *m H *m x).
    { by rewrite !mulmxBr !mulmxA. }
    by rewrite E subrr mulmx0 oppr0 mxE. }
  by rewrite mul0rn addr0.
Qed.
Lemma psd_congrT m n (W : 'M[R]_m) (H : 'M[R]_(m, n)) : psd W -> psd (H^T *m W *m H).
Proof. move=> HW. have := psd_congr H^T HW. by rewrite trmxK. Qed.
Lemma normal_best m n (W : 'M[R]_m) (H : 'M[R]_(m, n)) (y : 'cV[R]_m) (x : 'cV[R]_n) :
  psd W -> H^T *m W *m H *m x = H^T *m W *m y -> best_fit W H y x.
Proof.
  move=> HW E v. rewrite (normal_split v (proj1 HW) E). have := proj2 (psd_congrT H HW) (v - x).
  move: (qf W _) (qf _ (v - x)) => a b. rlra.
Qed.
Lemma normal_pd m n (W : 'M[R]_m) (H : 'M[R]_(m, n)) : pd W -> full_rank H -> pd (H^T *m W *m H).
Proof.
  move=> HW F. have [S N] := psd_congrT H (pd_psd HW). split=> // v Nv.
  have -> : qf (H^T *m W *m H) v = qf W (H *m v) by rewrite /qf trmx_mul !mulmxA.
  apply: (proj2 HW). apply: contra Nv => /eqP/F -> //.
Qed.
Lemma best_unique m n (W : 'M[R]_m) (H : 'M[R]_(m, n)) (y : 'cV[R]_m) (x v : 'cV[R]_n) :
  pd W -> full_rank H -> H^T *m W *m H *m x = H^T *m W *m y -> best_fit W H y v -> v = x.
Proof.
  move=> HW F E B. have [_ D] := normal_pd HW F. apply/eqP. rewrite -subr_eq0. apply/negPn/negP => N.
  have := D _ N. have := B x. rewrite (normal_split v (proj1 HW) E).
  move: (qf W _) (qf _ (v - x)) => a b. rlra.
Qed.
Lemma normal_of_best m n (W : 'M[R]_m) (H : 'M[R]_(m, n)) (y : 'cV[R]_m) (v x : 'cV[R]_n) :
  psd W -> H^T *m W *m H *m x = H^T *m W *m y -> best_fit W H y v -> H^T *m W *m H *m v = H^T *m W *m y.
Proof.
  move=> HW E B. have HA := psd_congrT H HW.
  have Z : qf (H^T *m W *m H) (v - x) = 0.
  { have := B x. rewrite (normal_split v (proj1 HW) E). have := proj2 HA (v - x).
    move: (qf W _) (qf _ (v - x)) => a b. toR => A1 A2. apply: Rle_antisym; lra. }
  have := psd_null HA Z. rewrite mulmxBr => /eqP. rewrite subr_eq0 => /eqP ->. exact: E.
Qed.

(** The normal equations always have a solution. *)
Lemma normal_solvable m n (W : 'M[R]_m) (H : 'M[R]_(m, n)) (y : 'cV[R]_m) : psd W ->
  exists v, H^T *m W *m H *m v = H^T *m W *m y.
Proof.
  move=> HW. set A := H^T *m W *m H. have HA := psd_congrT H HW.
  have S : (W *m H <= A)%MS.
  { rewrite submxE. apply/eqP. set C := cokermx A.
    apply/matrixP => i j.
    have Z : W *m (H *m col j C) = 0.
    { apply: psd_null HW _. have -> : qf W (H *m col j C) = ((col j C)^T *m (A *m col j C)) 0 0 by rewrite /qf /A trmx_mul !mulmxA.
      have -> : A *m col j C = col j (A *m C) by rewrite !colE mulmxA.
      have -> : A *m C = 0 by exact: mulmx_coker.
      by rewrite col0 mulmx0 mxE. }
    have := f_equal (fun M : 'cV[R]_m => M i 0) Z. rewrite mulmxA !colE !mulmxA -colE mxE. by rewrite [RHS]mxE => ->; rewrite !mxE. }
  have S2 : (y^T *m W *m H <= A)%MS by rewrite -mulmxA; exact: submx_trans (submxMl _ _) S.
  case/submxP: S2 => D E. exists D^T.
  rewrite -[LHS]trmxK trmx_mul trmxK. rewrite -/A (proj1 HA : A^T = A) -E !trmx_mul trmxK (proj1 HW : W^T = W). by rewrite mulmxA.
Qed.
