(** Least squares with the LDLT solver. *)
From Coq Require Import Reals Lra Psatz.
From mathcomp Require Import all_ssreflect all_fingroup all_algebra.
From Verif Require Import Base BaseMx ModelLdltFloat ModelLdltMx ModelFilterFloat ModelBlsFloat SpecFloatOps SpecKalman SpecBls SpecLdltFloat SpecFilterFloat SpecUpdateFloat SpecBlsFloat
  ProofMx ProofKalman ProofKalman2 ProofBls ProofFilterFloat ProofUpdateFloat ProofLongFloat ProofLdlt6 ProofBlsFloat ProofBlsFloat2 ProofBlsFloat3 ProofStrapdownFloat.
Set Implicit Arguments.
Unset Strict Implicit.
Unset Printing Implicit Defensive.
Import GRing.Theory.
Local Open Scope ring_scope.
Local Open Scope outcome_scope.

Lemma rel_rnd r : rel_ok r -> rnd_ok r.
Proof. move=> H x. apply: Rle_trans (H x) _. have : Rle 0 eta64 by exact: eta_pos. move: (Rmult _ _) => a. lra. Qed.

Section Near.
Variables (n : nat) (A Af : 'M[R]_n) (f l : R).
Hypothesis SA : symmetric A. Hypothesis A0 : forall i, Rlt 0 (A i i). Hypothesis AP : apart l A.
Hypothesis NR : forall i j, Rle (Rabs (Rminus (Af i j) (A i j))) (Rmult f (Rmult (sqrt (A i i)) (sqrt (A j j)))).
Hypothesis F0 : Rle 0 f. Hypothesis L1 : Rle l 1. Hypothesis FN : Rle (Rmult (Rmult 2 (INR n)) f) l.

Lemma f_half (i : 'I_n) : Rle f (Rdiv 1 2).
Proof. have N1 : Rle 1 (INR n) by exact: (INR_ge1 i). have := Rmult_le_compat_r _ _ _ F0 N1. lra. Qed.
Lemma near_diag_entry i : Rle (Rabs (Rminus (Af i i) (A i i))) (Rmult f (A i i)).
Proof. have := NR i i. rewrite sqrt_sqrt //. exact: Rlt_le. Qed.
Lemma near_pos i : Rlt 0 (Af i i).
Proof.
  have := near_diag_entry i. have := f_half i. have := A0 i. move: (A i i) (Af i i) => a b H1 H2 /Rcomplements.Rabs_le_between H3.
  have := Rmult_le_compat_r _ _ _ (Rlt_le _ _ H1) H2. lra.
Qed.
Lemma third_scal l' f' N S T Q Q' E w : Rle (Rmult l' S) Q -> Q' = Rplus Q E -> Rle (Rabs E) (Rmult f' (Rmult w w)) -> Rle (Rmult w w) (Rmult N S) -> Rle (Rmult (Rmult 2 N) f') l' -> Rle 0 f' -> Rle 0 S ->
  Rle T (Rmult (Rdiv 3 2) S) -> Rle 0 l' -> Rle (Rmult (Rdiv l' 3) T) Q'.
Proof.
  move=> H1 -> /Rcomplements.Rabs_le_between H2 H3 H4 H5 H6 H7 H8. have := Rmult_le_compat_l _ _ _ H5 H3. have := Rmult_le_compat_r _ _ _ H6 H4.
  have := Rmult_le_compat_l (Rdiv l' 3) _ _ ltac:(lra) H7. lra.
Qed.
Lemma sub_back (a b : R) : a = Rplus b (Rplus a (Ropp b)).
Proof. ring. Qed.
Lemma near_apart : Rle 0 l -> apart (Rdiv l 3) (lower Af).
Proof.
  move=> L0 z. have D0 i : Rle 0 (sqrt (A i i)) by exact: sqrt_pos.
  have NL := lower_near SA (B := fun i j => Rmult f (Rmult (sqrt (A i i)) (sqrt (A j j)))) (fun i j => f_equal (Rmult f) (Rmult_comm _ _)) NR.
  have DD i : Rmult (sqrt (A i i)) (sqrt (A i i)) = A i i by apply: sqrt_sqrt; exact: Rlt_le.
  have W := wsum_sq (fun i => sqrt (A i i)) z. rewrite (eq_bigr (fun i => Rmult (A i i) (Rmult (z i 0) (z i 0)))) in W; last by move=> i _; rewrite DD.
  have WF := @wform n (fun i => sqrt (A i i)) (lower Af - A) f z z D0. 
  apply: (third_scal (AP z) _ (WF _) W FN F0) => //.
  - rewrite /qf mulmxBr mulmxBl [X in Rplus _ X]mxE [X in _ + X]mxE. exact: sub_back.
  - move=> i j. rewrite mxE [X in _ + X]mxE. exact: NL.
  - apply: sum_ge0 => i. apply: Rmult_le_pos; [exact: Rlt_le|exact: Rle_0_sqr].
  - rewrite sum_scale. apply: sum_le => i. rewrite -[X in Rle _ X]Rmult_assoc. apply: Rmult_le_compat_r; first exact: Rle_0_sqr. rewrite lower_diag.
    have := near_diag_entry i. have := f_half i. have := A0 i. move: (A i i) (Af i i) => a b H1 H2 /Rcomplements.Rabs_le_between H3.
    have := Rmult_le_compat_r _ _ _ (Rlt_le _ _ H1) H2. lra.
Qed.
End Near.

Section Compose.
Variables (r : R -> R) (dot : dot_fun) (msub : R -> nat -> (nat -> R) -> (nat -> R) -> R) (N m n : nat) (p : 'S_n).
Hypothesis Hr : rel_ok r. Hypothesis Hd : dot_ok dot. Hypothesis Hs : msub_ok msub.
Hypothesis HN : Rle (INR N) 1000000. Hypothesis Hn : (n <= N)%N. Hypothesis Hm : (m <= N)%N.
Variables (H : 'M[R]_(m, n)) (y : 'cV[R]_m) (l : R).
Hypothesis L0 : Rlt 0 l. Hypothesis L1 : Rle l 1.
Let v := vN N.
Let s := Rmult 9 (Rmult (INR n + 2) u64).

Lemma n_small : Rle (INR n) 1000000.
Proof. apply: Rle_trans _ HN. apply: le_INR. exact/leP. Qed.
Lemma s_ge0 : Rle 0 s.
Proof. have := pos_INR n. have := u64_bounds. move=> [U _] K. apply: Rmult_le_pos; first lra. apply: Rmult_le_pos; rlra. Qed.
Lemma budget_scal k f u t : Rle 0 k -> Rle 0 f -> Rle 0 u -> Rle (Rmult (Rmult 2 k) (Rplus (Rmult 2 (Rmult 9 (Rmult (Rplus k 2) u))) f)) t ->
  Rle (Rmult (Rmult 2 k) f) t /\ Rle (Rmult 11 (Rmult k (Rmult (Rplus k 2) u))) (Rdiv t 3).
Proof.
  move=> K F U E. have P := Rmult_le_pos _ _ K F. have Q : Rle 0 (Rmult k (Rmult (Rplus k 2) u)) by apply: Rmult_le_pos => //; apply: Rmult_le_pos; lra.
  split; lra.
Qed.
(** The solver on a matrix that is close to one with a margin. *)
Lemma solves (A Af : 'M[R]_n) (f : R) b : symmetric A -> (forall i, Rlt 0 (A i i)) -> apart l A ->
  (forall i j, Rle (Rabs (Rminus (Af i j) (A i j))) (Rmult f (Rmult (sqrt (A i i)) (sqrt (A j j))))) -> Rle 0 f ->
  Rle (Rmult (Rmult 2 (INR n)) (Rplus (Rmult 2 s) f)) l ->
  exists x, ldlt_mx p r msub Af b = Ret x /\ solved s Af b x.
Proof.
  move=> SA A0 AP NR F0 E. have [U _] := u64_bounds. have [E1 E2] := budget_scal (pos_INR n) F0 (Rlt_le _ _ U) E.
  apply: (@ldlt_mx_solved n p Af r msub (Rdiv l 3) Hr Hs n_small).
  - move=> i. exact: near_pos NR F0 L1 E1 i.
  - apply: near_apart SA A0 AP NR F0 L1 E1 _. exact: Rlt_le.
  - lra.
  - lra.
  - exact: E2.
Qed.

Lemma ldlt_unweighted : apart l (H^T *m H) -> (forall i, Rle tiny64 ((H^T *m H) i i)) -> Rle tiny64 (sq y) ->
  Rle (Rmult (Rmult 2 (INR n)) (Rplus (Rmult 2 s) (Rmult 6 v))) l ->
  exists xf Jf, unweighted_f r dot (ldlt_mx p r msub) y H = Ret (xf, Jf) /\ solved s (normal_f dot H) (rhs_f dot H y) xf.
Proof.
  move=> HA TA TY HE. have [V0 [V1 V2]] := vN_bounds HN. rewrite -/v in V0 V1 V2. have HW := pd_psd (pd1 m).
  have HP : psd (H^T *m H) by have := psd_congrT H HW; rewrite mulmx1.
  have [|||x [Ex Sx]] := @solves (H^T *m H) (normal_f dot H) (Rmult 6 v) (rhs_f dot H y) (proj1 HP) _ HA _ _ HE.
  - move=> i. exact: Rlt_le_trans tiny_pos (TA i).
  - move=> i j. have := proj1 (near_normal Hd HN Hm H i j). have := size_normal i j TA. have : Rle 0 (Rmult 3 v) by lra.
    move: (size_mul _ _ i j) (Rmult (sqrt _) _) => a b. rewrite -/v => P A B. apply: Rle_trans B _. have := Rmult_le_compat_l _ _ _ P A. lra.
  - lra.
  exists x, (cost_f r dot y H x). by rewrite /unweighted_f Ex.
Qed.
Lemma ldlt_weighted W q : psd W -> apart l (H^T *m W *m H) -> Rle 1 q ->
  (forall i j, Rle (size_mul (size_mul H^T W) H i j) (Rmult q (Rmult (sqrt ((H^T *m W *m H) i i)) (sqrt ((H^T *m W *m H) j j))))) ->
  Rle (Rmult (Rmult 2 (INR n)) (Rplus (Rmult 2 s) (Rmult (Rmult 6 q) v))) l ->
  exists xf Jf, weighted_f r dot (ldlt_mx p r msub) y H W = Ret (xf, Jf) /\ solved s (wnormal_f dot H W) (wrhs_f dot H W y) xf.
Proof.
  move=> HW HA Q1 SN HE. have [V0 [V1 V2]] := vN_bounds HN. rewrite -/v in V0 V1 V2.
  have [|||x [Ex Sx]] := @solves (H^T *m W *m H) (wnormal_f dot H W) (Rmult (Rmult 6 q) v) (wrhs_f dot H W y) (proj1 (psd_congrT H HW)) _ HA _ _ HE.
  - move=> i. have := SN i i. have := size_mul_tiny (size_mul H^T W) H i i. have := tiny_pos. have := sqrt_pos ((H^T *m W *m H) i i).
    move: (size_mul _ _ i i) => a. case: (Rle_lt_dec ((H^T *m W *m H) i i) 0) => // K. rewrite (sqrt_neg K). rlra.
  - move=> i j. have := proj1 (near_wnormal Hd HN Hm H W i j). have := SN i j. have : Rle 0 (Rmult 6 v) by lra.
    move: (size_mul _ _ i j) (Rmult (sqrt _) _) => a b. rewrite -/v => P A B. apply: Rle_trans B _. have := Rmult_le_compat_l _ _ _ P A. lra.
  - apply: Rmult_le_pos; lra.
  exists x, (cost_f r dot y H x). by rewrite /weighted_f Ex.
Qed.
End Compose.
