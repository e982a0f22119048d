(** An unscented update in doubles that returns a negative variance. *)
From Coq Require Import Reals Arith Lra Psatz.
From Flocq Require Import Core.
From mathcomp Require Import all_ssreflect all_algebra.
From Verif Require Import Base BaseMx ModelDate ModelLdltFloat ModelLuFloat ModelLuMx ModelFilterFloat ModelUkfFloat SpecKalman SpecUkfFloat
  ProofMx ProofRnd ProofFilterFloat1 ProofFilterFloat ProofStrapdownFloat ProofUkfFloat3 ProofLuMx ProofUkfNeg.
Set Implicit Arguments.
Unset Strict Implicit.
Unset Printing Implicit Defensive.
Import GRing.Theory.
Local Open Scope ring_scope.
Local Open Scope outcome_scope.

Definition y21 : 'M[R]_(1, 3) := \matrix_(a, i) nth R0 [:: R0; IZR 2; Ropp 2] i.
Definition z21 : 'M[R]_(1, 3) := \matrix_(a, i) nth R0 [:: R0; IZR 42; Ropp 42] i.
Lemma acc3 r c (t : 'I_3 -> R) : acc_f r c t = r (Rplus (r (Rplus (r (Rplus c (t (inord 0)))) (t (inord 1)))) (t (inord 2))).
Proof.
  have I (i : 'I_3) (j : nat) : nat_of_ord i = j -> i = inord j by move=> <-; rewrite inord_val.
  rewrite /acc_f !enum_ordSl enum_ord0 /=. do ! congr (r (Rplus _ (t _))); try exact: I.
Qed.
Lemma w3_at j : (j < 3)%N -> w3 (inord j) 0 = nth R0 [:: Rdiv 1 2; Rdiv 1 4; Rdiv 1 4] j.
Proof. move=> H. by rewrite mxE inordK. Qed.
Lemma y21_at a j : (j < 3)%N -> y21 a (inord j) = nth R0 [:: R0; IZR 2; Ropp 2] j.
Proof. move=> H. by rewrite mxE inordK. Qed.
Lemma z21_at a j : (j < 3)%N -> z21 a (inord j) = nth R0 [:: R0; IZR 42; Ropp 42] j.
Proof. move=> H. by rewrite mxE inordK. Qed.
Lemma mean21 : mean_f rnd64 w3 z21 = 0.
Proof. apply/colP => a. rewrite [RHS]mxE mxE acc3 !w3_at // !z21_at //=. exact: three_mean. Qed.
Lemma S21 : scatter_f rnd64 (const_mx noise21) w3 z21 0 z21 0 = const_mx (IZR 882).
Proof. apply/matrixP => a b. rewrite [RHS]mxE scatE acc3 !w3_at // !z21_at //= ![const_mx _ _ _]mxE. exact: three_S. Qed.
Lemma T21 : scatter_f rnd64 0 w3 y21 0 z21 0 = const_mx (IZR 42).
Proof. apply/matrixP => a b. rewrite [RHS]mxE scatE acc3 !w3_at // !y21_at // !z21_at //= ![const_mx _ _ _]mxE. exact: three_T. Qed.
Lemma inv21 : lu_mx rnd64 (msub_loop rnd64) (const_mx (IZR 882) : 'M[R]_1) = Ret (const_mx si21).
Proof.
  rewrite /lu_mx /lu_inverse /=. have E : entries (const_mx (IZR 882) : 'M[R]_1) 0 0 = IZR 882 by rewrite (entries_at _ (0 : 'I_1) (0 : 'I_1)) mxE.
  rewrite E /msub_loop /=. have R8 : rnd64 (Rminus 882 0) = IZR 882 by rewrite Rminus_0_r; exact: (r_int 882).
  rewrite R8. case: Req_EM_T => [Z|_]; first by have := IZR_neq 882 0 ltac:(done). rewrite /=. congr Ret. apply/matrixP => i j. rewrite !mxE (ord1 i) (ord1 j) /=.
  rewrite /lu_solve /upper_solve /forward_diag /=. rewrite E R8 !Rminus_0_r. have R1' : rnd64 1 = 1%R by exact: (r_int 1). rewrite r_si !R1' Rmult_1_l. rewrite -r_si. exact: r_idem.
Qed.
Lemma mul1 (A B : 'M[R]_1) : mul_f (@dot_loop rnd64) A B = const_mx (rnd64 (Rmult (A 0 0) (B 0 0))).
Proof. apply/matrixP => i j. rewrite !mxE (ord1 i) (ord1 j) /=. rewrite Rplus_0_l r_idem. do ! congr (rnd64 (Rmult _ _)); congr (_ _ _); exact: val_inj. Qed.
Lemma neg21 : exists xf Pf, filterUkfUpdate_f rnd64 (@dot_loop rnd64) (lu_mx rnd64 (msub_loop rnd64)) 0 (const_mx (IZR 2)) y21 w3 z21 0 (const_mx noise21) = Ret (xf, Pf) /\ Pf 0 0 = Ropp (bpow radix2 (-51)).
Proof.
  rewrite /filterUkfUpdate_f mean21 S21 T21 inv21 /=. eexists; eexists. split; first reflexivity. rewrite !mul1 !mxE r_k r_ks r_ksk. exact: r_neg.
Qed.
Lemma y21_mean : SpecKalman.mean (weights w3) (points y21) = 0.
Proof. apply/colP => a. rewrite summxE !big_ord_recr big_ord0 /= /weights !mxE /=. toR. lra. Qed.
Lemma y21_cov : cov (weights w3) (points y21) = const_mx (IZR 2).
Proof. rewrite /cov y21_mean. apply/matrixP => a b. rewrite summxE !big_ord_recr big_ord0 /= /weights !mxE !big_ord1 !mxE /=. toR. lra. Qed.
