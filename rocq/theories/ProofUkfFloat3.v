(** The unscented filter without rounding; symmetry in doubles. *)
From Coq Require Import Reals Lra Psatz.
From Flocq Require Import Core.
From mathcomp Require Import all_ssreflect all_algebra.
From Verif Require Import Base BaseMx ModelEigen ModelKalman ModelDate ModelFilterFloat ModelUkfFloat SpecFloatOps SpecKalman SpecFilterFloat SpecLdltFloat SpecUkfFloat
  ProofMx ProofKalman ProofRnd ProofFilterFloat1 ProofFilterFloat ProofLdlt8 ProofStrapdownFloat ProofUkfFloat ProofUkfFloat2 ProofUkfSym.
Set Implicit Arguments.
Unset Strict Implicit.
Unset Printing Implicit Defensive.
Import GRing.Theory.
Local Open Scope ring_scope.
Local Open Scope outcome_scope.

Section Ex.
Let e (x : R) := x.
Lemma mean_exact n k (W : 'cV[R]_k) (Y : 'M[R]_(n, k)) : mean_f e W Y = wmean W Y.
Proof. apply/colP => a. rewrite meanf_mn /mnf acc_exact lsum_enum /wmean summxE Rplus_0_l. apply: eq_bigr => i _. by rewrite !mxE. Qed.
Lemma scatter_exact n m k (C : 'M[R]_(n, m)) (W : 'cV[R]_k) (A : 'M[R]_(n, k)) a (B : 'M[R]_(m, k)) b : scatter_f e C W A a B b = C + wscat W A a B b.
Proof.
  apply/matrixP => p q. rewrite scatf_sc /scf acc_exact lsum_enum [RHS]mxE /wscat summxE. congr (_ + _). apply: eq_bigr => i _.
  rewrite !mxE big_ord_recl big_ord0 !mxE addr0. by rewrite mulrA.
Qed.
Lemma predict_exact n (W : 'cV[R]_(2 * n + 1)) (Y : 'M[R]_(n, 2 * n + 1)) (Q P1 : 'M[R]_n) (x1 : 'cV[R]_n) :
  let: (x, P) := filterUkfPredict_f e W Y Q in filterUkfPredict (DV W) (DM Y) (DM Q) (DV x1) (DM P1) = Ret (true, (DV x, DM P)).
Proof. by rewrite /filterUkfPredict_f mean_exact scatter_exact ukfPredict_ok. Qed.
Definition invc m (S : 'M[R]_m) : outcome 'M[R]_m := if S \in unitmx then Ret (invmx S) else NonFinite.
Lemma update_exact n m (x x1 : 'cV[R]_n) (P P1 : 'M[R]_n) (Y : 'M[R]_(n, 2 * n + 1)) (W : 'cV[R]_(2 * n + 1)) (Z : 'M[R]_(m, 2 * n + 1)) (z : 'cV[R]_m) (Rk : 'M[R]_m) :
  filterUkfUpdate (DV x) (DM P) (DM Y) (DV W) (DM Z) (DV z) (DM Rk) (DV x1) (DM P1) =
  (p <- filterUkfUpdate_f e (fun k a b => \sum_(i < k) a i * b i) (@invc m) x P Y W Z z Rk ;; Ret (true, (DV p.1, DM p.2))).
Proof.
  have E a b c (A : 'M[R]_(a, b)) (B : 'M[R]_(b, c)) : mul_f (fun k a b => \sum_(i < k) a i * b i) A B = A *m B by apply/matrixP => i j; rewrite !mxE.
  have I a b (A : 'M[R]_(a, b)) : map_mx e A = A by apply/matrixP => i j; rewrite mxE.
  have := ukfUpdate_ok x x1 P P1 Y W Z z Rk. cbv zeta => ->. rewrite /filterUkfUpdate_f mean_exact !scatter_exact add0r /invc.
  case: ifP => //= _. by rewrite !E !I.
Qed.
End Ex.

(** ** Symmetry *)
Definition w5 : 'cV[R]_5 := \col_i nth R0 [:: Rdiv 1 8; Rdiv 7 16; Rdiv 7 16; R0; R0] i.
Definition y5 : 'M[R]_(2, 5) := \matrix_(a, i) nth R0 (nth [::] [:: [:: R0; IZR 48; Ropp 48; R0; R0]; [:: R0; g3; Ropp g3; R0; R0]] a) i.
Lemma acc5 r c (t : 'I_5 -> R) : acc_f r c t = r (Rplus (r (Rplus (r (Rplus (r (Rplus (r (Rplus c (t (inord 0)))) (t (inord 1)))) (t (inord 2)))) (t (inord 3)))) (t (inord 4))).
Proof.
  have I (i : 'I_5) (j : nat) : nat_of_ord i = j -> i = inord j by move=> <-; rewrite inord_val.
  rewrite /acc_f !enum_ordSl enum_ord0 /=.
  do ! congr (r (Rplus _ (t _))); try exact: I.
Qed.
Lemma w5_at j : (j < 5)%N -> w5 (inord j) 0 = nth R0 [:: Rdiv 1 8; Rdiv 7 16; Rdiv 7 16; R0; R0] j.
Proof. move=> H. by rewrite mxE inordK. Qed.
Lemma y5_at a j : (j < 5)%N -> y5 a (inord j) = nth R0 (nth [::] [:: [:: R0; IZR 48; Ropp 48; R0; R0]; [:: R0; g3; Ropp g3; R0; R0]] a) j.
Proof. move=> H. by rewrite mxE inordK. Qed.
Lemma w5_dist : distribution w5.
Proof.
  split; [|by rewrite !big_ord_recr big_ord0 /= !mxE /=; toR; lra].
  move=> i. rewrite mxE. case: i => [[|[|[|[|[|]]]]] //= _]; lra.
Qed.
Lemma mean5_0 : mean_f rnd64 w5 y5 0 0 = R0.
Proof. rewrite mxE acc5 !w5_at // !y5_at //=. exact: mean48. Qed.
Lemma mean5_1 : mean_f rnd64 w5 y5 1 0 = R0.
Proof. rewrite mxE acc5 !w5_at // !y5_at //=. exact: meang3. Qed.
Lemma scatE r n m k (C : 'M[R]_(n, m)) W (A : 'M[R]_(n, k)) a (B : 'M[R]_(m, k)) b p q : scatter_f r C W A a B b p q =
  acc_f r (C p q) (fun i => r (Rmult (r (Rmult (W i 0) (r (Rminus (A p i) (a p 0))))) (r (Rminus (B q i) (b q 0))))).
Proof. by rewrite mxE. Qed.
Lemma ukf_symmetry_lost :
  ~ (forall (W : 'cV[R]_5) (Y : 'M[R]_(2, 5)) (Q : 'M[R]_2), distribution W -> psd Q -> symmetric (filterUkfPredict_f rnd64 W Y Q).2).
Proof.
  move=> H. have := H w5 y5 0 w5_dist (psd0 2). rewrite /symmetric /filterUkfPredict_f /= => /matrixP /(_ 0 1).
  rewrite [_^T _ _]mxE !scatE !acc5 !w5_at // !y5_at //= mean5_0 mean5_1 !mxE. move=> E. apply: entries_differ. rewrite -entry01 -entry10. exact: (esym E).
Qed.

(** ** A case *)
Definition w3 : 'cV[R]_3 := \col_i nth R0 [:: Rdiv 1 2; Rdiv 1 4; Rdiv 1 4] i.
Definition y3 : 'M[R]_(1, 3) := \matrix_(a, i) nth R0 [:: IZR 2; IZR 5; Ropp 1] i.
Lemma w3_dist : distribution w3.
Proof.
  split; [|by rewrite !big_ord_recr big_ord0 /= !mxE /=; toR; lra].
  move=> i. rewrite mxE. case: i => [[|[|[|]]] //= _]; lra.
Qed.
Lemma mean3 : SpecKalman.mean (weights w3) (points y3) 0 0 = IZR 2.
Proof. rewrite summxE !big_ord_recr big_ord0 /= /weights !mxE /=. toR. lra. Qed.
Lemma cov3 : cov (weights w3) (points y3) 0 0 = Rdiv 9 2.
Proof.
  rewrite cov_sc /sc -!mean_mn mean3 lsum_enum !big_ord_recr big_ord0 /= /weights !mxE /=. toR. lra.
Qed.
Section Sc.
Local Open Scope R_scope.
Lemma case_slip s : s = 101 / 100 * ((1 + 1 + 1 + 1) * u64) * (0 + Rabs (1 / 2 * 2) + Rabs (1 / 4 * 5) + Rabs (1 / 4 * - (1))) -> 0 <= s <= / 10000000000000.
Proof.
  have := u64_bounds. rewrite (Rabs_pos_eq (1 / 2 * 2)); [|lra]. rewrite (Rabs_pos_eq (1 / 4 * 5)); [|lra]. rewrite Rabs_left; [|lra]. move=> U ->. lra.
Qed.
Lemma case_bound s e : 0 <= s <= / 10000000000000 -> e <= 101 / 100 * ((1 + 1 + 1 + (1 + 1 + 1 + 1)) * u64) * (Rabs 1 + sqrt (9 / 2 + s * s) * sqrt (9 / 2 + s * s)) + s * s -> e <= / 1000000000000.
Proof.
  have U := u64_bounds. move=> S. rewrite sqrt_sqrt; [|nra]. rewrite Rabs_R1. have : s * s <= / 10000000000000 by nra. have : 0 <= s * s by nra. move=> S0 S1 E. apply: Rle_trans E _. nra.
Qed.
End Sc.
