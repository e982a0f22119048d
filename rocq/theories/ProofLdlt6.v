(** From natural numbers to matrices. *)
From Coq Require Import Reals Arith Lra Lia Psatz.
From mathcomp Require Import all_ssreflect all_fingroup all_algebra.
From Verif Require Import Base BaseMx ModelLdltFloat ModelLdltMx SpecFloatOps SpecKalman SpecBls SpecLdltFloat SpecBlsFloat ProofLdlt ProofLdlt4 ProofLdlt5 ProofStrapdownFloat.
Set Implicit Arguments.
Unset Strict Implicit.
Unset Printing Implicit Defensive.

Import GRing.Theory.
Local Open Scope ring_scope.
Local Open Scope outcome_scope.

Lemma sum_big (f : nat -> R) n : sum f n = \sum_(i < n) f i.
Proof. elim: n => [|n IH]; first by rewrite big_ord0. by rewrite big_ord_recr /= IH. Qed.

Section Mx.
Variables (n : nat) (p : 'S_n) (A : 'M[R]_n).
Lemma rows_at (i j : 'I_n) : rows_f p A i j = lower A (p i) (p j).
Proof. by rewrite /rows_f !valK mxE. Qed.
Lemma rows_sym i j : rows_f p A i j = rows_f p A j i.
Proof.
  rewrite /rows_f. case: insub => [i'|]; case: insub => [j'|] //.
  case: ltngtP => // E. by rewrite (val_inj E).
Qed.
Lemma lower_diag i : lower A i i = A i i. Proof. by rewrite mxE leqnn. Qed.
Lemma qf_sum (B : 'M[R]_n) (z : 'cV[R]_n) : qf B z = \sum_i \sum_j Rmult (B i j) (Rmult (z i 0) (z j 0)).
Proof.
  rewrite /qf mxE (eq_bigr (fun j => \sum_i Rmult (B i j) (Rmult (z i 0) (z j 0)))); first by rewrite exchange_big.
  move=> j _. rewrite mxE big_distrl /=. apply: eq_bigr => i _. rewrite !mxE. change (Rmult (Rmult (z i 0) (B i j)) (z j 0) = Rmult (B i j) (Rmult (z i 0) (z j 0))). ring.
Qed.
Lemma rows_apart l : apart l (lower A) -> forall x, Rle (Rmult l (sum (fun i => Rmult (rows_f p A i i) (Rmult (x i) (x i))) n)) (sum (fun i => sum (fun j => Rmult (rows_f p A i j) (Rmult (x i) (x j))) n) n).
Proof.
  move=> AP x. have := AP (\col_i x ((p^-1)%g i)). rewrite qf_sum. rewrite (reindex_inj (@perm_inj _ p)) /=. rewrite [X in Rle _ X](reindex_inj (@perm_inj _ p)) /=.
  rewrite !sum_big. congr (Rle (Rmult l _) _).
  - apply: eq_bigr => i _. by rewrite rows_at mxE permK.
  - apply: eq_bigr => i _. rewrite (reindex_inj (@perm_inj _ p)) /= sum_big. apply: eq_bigr => j _. by rewrite rows_at !mxE !permK.
Qed.

Variables (r : R -> R) (msub : R -> nat -> (nat -> R) -> (nat -> R) -> R) (l : R).
Hypothesis Hr : rel_ok r. Hypothesis Hm : msub_ok msub. Hypothesis Hn : Rle (INR n) 1000000.
Hypothesis Apos : forall i, Rlt 0 (A i i).
Hypothesis AP : apart l (lower A).
Hypothesis L0 : Rlt 0 l. Hypothesis L1 : Rle l 1.
Hypothesis L2 : Rle (Rmult 11 (Rmult (INR n) (Rmult (INR n + 2) u64))) l.

Lemma lam_scal N u v : Rle 0 N -> Rle 0 u -> Rle (Rmult 11 (Rmult N (Rmult (Rplus N 2) u))) v -> Rle (Rmult 10 (Rmult N (Rmult (Rdiv 101 100) (Rmult (Rplus N 2) u)))) v.
Proof.
  move=> H U. have : Rle 0 (Rmult N (Rmult (Rplus N 2) u)) by apply: Rmult_le_pos => //; apply: Rmult_le_pos; lra.
  lra.
Qed.

Lemma ldlt_mx_solved b : exists x, ldlt_mx p r msub A b = Ret x /\ solved (Rmult 9 (Rmult (INR n + 2) u64)) A b x.
Proof.
  have pos i : lt i n -> Rlt 0 (rows_f p A i i).
  { move=> /ltP I. rewrite -[i]/(nat_of_ord (Ordinal I)) rows_at lower_diag. exact: Apos. }
  have F := rows_apart AP.
  have Lm : Rle (Rmult 10 (Rmult (INR n) (Rmult (Rdiv 101 100) (Rmult (INR n + 2) u64)))) l /\ Rle l 1.
  { split=> //. apply: lam_scal L2; [exact: pos_INR|]. have := u64_bounds. lra. }
  have [x [E [EQ [EB ES]]]] := @ldlt_backward r msub (rows_f p A) n l Hr Hm Hn rows_sym pos (mean_entry _ _ _ F rows_sym pos L0) (pd_part _ _ _ F) Lm L0 (rhs_rows p b).
  exists (\col_i x ((p^-1)%g i)). split; first by rewrite /ldlt_mx EQ.
  exists (\matrix_(i, j) E ((p^-1)%g i) ((p^-1)%g j)). split.
  - move=> i j. rewrite mxE. have := EB ((p^-1)%g i) ((p^-1)%g j). rewrite !rows_at !permKV !lower_diag. apply; apply/ltP; exact: ltn_ord.
  - apply/matrixP => i k. rewrite (ord1 k) mxE. have := ES ((p^-1)%g i). rewrite sum_big /rhs_rows valK permKV => <-; last by apply/ltP; exact: ltn_ord.
    rewrite [RHS](reindex_inj (@perm_inj _ (p^-1)%g)) /=. apply: eq_bigr => j _. by rewrite !mxE rows_at !permKV !mxE.
Qed.
End Mx.
