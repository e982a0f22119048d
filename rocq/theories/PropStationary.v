(** Claim about what the nonlinear least squares of
    src/filter/BatchLeastSquares.cpp return in double arithmetic, however the loop
    got there. *)
From Coq Require Import Reals Lra.
From mathcomp Require Import all_ssreflect all_fingroup all_algebra.
From Verif Require Import Base BaseMx ModelEigen ModelKalman ModelBls ModelDate ModelFilterFloat ModelBlsFloat ModelLdltMx ModelLdltFloat ModelNlsFloat SpecFloatOps SpecKalman SpecFilter SpecBls SpecFilterFloat SpecUpdateFloat SpecBlsFloat SpecLdltFloat SpecNlsFloat SpecWnlsFloat SpecStationary
  ProofBlsFloat3 ProofLdlt8 ProofGaussNewton ProofNlsCase ProofWnlsCase ProofStationary.
Set Implicit Arguments.
Unset Strict Implicit.
Unset Printing Implicit Defensive.
Import GRing.Theory.
Local Open Scope ring_scope.
Local Open Scope outcome_scope.

(** C162.  No weights.  [xp] is the estimate before the last step. *)
Theorem C162_unweighted : forall (r rs : R -> R) (dot : dot_fun) msub (N m n : nat) (piv : 'M[R]_n -> 'S_n) hF HF (y : 'cV[R]_m) eps fuel H (x x1 : 'cV[R]_n) H' x' x1' J',
  rnd_ok r -> rel_ok rs -> dot_ok dot -> msub_ok msub -> Rle (INR N) 1000000 -> (n <= N)%N -> (m <= N)%N -> (0 < n)%N ->
  Rlt eps (norm_f r dot (map_mx r (x1 - x))) ->
  unweighted_nls_f r dot (fun A b => ldlt_mx (piv A) rs msub A b) hF HF y eps fuel H x x1 = Ret (H', x', x1', J') ->
  let v := Rmult (INR N + 1) u64 in
  let sv := Rmult 9 (Rmult (Rplus (INR n) 2) u64) in
  let E := Rplus (Rmult (Rdiv 101 100) eps) (sqrt tiny64) in
  exists xp, [/\ H' = HF xp, x1' = x', Rle (len (x' - xp)) E,
    Rle (Rabs (Rminus J' (Rmult (Rdiv 1 2) (sq (y - H' *m x'))))) (Rmult (Rmult 10 v) (Rplus (sq (resid_size H' y x')) tiny64)) &
    forall l, Rlt 0 l -> Rle l 1 -> apart l (H'^T *m H') -> (forall i, Rle tiny64 ((H'^T *m H') i i)) ->
    Rle (Rmult (Rmult 2 (INR n)) (Rplus (Rmult 2 sv) (Rmult 6 v))) l ->
    forall i, Rle (Rabs ((H'^T *m (y - hF xp)) i 0)) (Rmult (sqrt ((H'^T *m H') i i))
      (Rplus (Rmult (Rmult 2 (sqrt (\sum_j (H'^T *m H') j j))) (Rplus E (Rplus (Rmult (Rmult 2 u64) (len x')) (sqrt tiny64))))
             (Rmult (Rmult 8 v) (Rplus (len (y - hF xp)) (sqrt tiny64)))))].
Proof.
  move=> r rs dot msub N m n piv hF HF y eps fuel H x x1 H' x' x1' J' Hr Hs Hd Hms HN Hn Hm n0 Er El.
  exact: (nls_last Hr Hs Hd Hms HN Hn Hm n0 Er El).
Qed.
Print Assumptions C162_unweighted.
(** Positive semidefinite weights. *)
Theorem C162_any_weights : forall (r rs : R -> R) (dot : dot_fun) msub (N m n : nat) (piv : 'M[R]_n -> 'S_n) hF HF (y : 'cV[R]_m) (W : 'M[R]_m) q eps fuel H (x x1 : 'cV[R]_n) H' x' x1' J',
  rnd_ok r -> rel_ok rs -> dot_ok dot -> msub_ok msub -> Rle (INR N) 1000000 -> (n <= N)%N -> (m <= N)%N -> (0 < n)%N -> psd W -> Rle 1 q ->
  Rlt eps (norm_f r dot (map_mx r (x1 - x))) ->
  weighted_nls_f r dot (fun A b => ldlt_mx (piv A) rs msub A b) hF HF y W eps fuel H x x1 = Ret (H', x', x1', J') ->
  let v := Rmult (INR N + 1) u64 in
  let sv := Rmult 9 (Rmult (Rplus (INR n) 2) u64) in
  let E := Rplus (Rmult (Rdiv 101 100) eps) (sqrt tiny64) in
  let A := H'^T *m W *m H' in
  exists xp, [/\ H' = HF xp, x1' = x', Rle (len (x' - xp)) E,
    Rle (Rabs (Rminus J' (Rmult (Rdiv 1 2) (sq (y - H' *m x'))))) (Rmult (Rmult 10 v) (Rplus (sq (resid_size H' y x')) tiny64)) &
    forall l Y, Rlt 0 l -> Rle l 1 -> sound_at W q l Y H' (y - hF xp) ->
    Rle (Rmult (Rmult 2 (INR n)) (Rplus (Rmult 2 sv) (Rmult (Rmult 6 q) v))) l ->
    forall i, Rle (Rabs ((H'^T *m W *m (y - hF xp)) i 0)) (Rmult (sqrt (A i i))
      (Rplus (Rmult (Rmult 2 (sqrt (\sum_j A j j))) (Rplus E (Rplus (Rmult (Rmult 2 u64) (len x')) (sqrt tiny64))))
             (Rmult (Rmult (Rmult 13 q) v) Y)))].
Proof.
  move=> r rs dot msub N m n piv hF HF y W q eps fuel H x x1 H' x' x1' J' Hr Hs Hd Hms HN Hn Hm n0 HW q1 Er El.
  exact: (wnls_last Hr Hs Hd Hms HN Hn Hm n0 HW q1 Er El).
Qed.
Print Assumptions C162_any_weights.
(** Weights on the diagonal: the sizes of the terms need no assumption. *)
Theorem C162_diagonal_weights : forall (r rs : R -> R) (dot : dot_fun) msub (N m n : nat) (piv : 'M[R]_n -> 'S_n) hF HF (y : 'cV[R]_m) (W : 'M[R]_m) eps fuel H (x x1 : 'cV[R]_n) H' x' x1' J',
  rnd_ok r -> rel_ok rs -> dot_ok dot -> msub_ok msub -> Rle (INR N) 1000000 -> (n <= N)%N -> (m <= N)%N -> (0 < n)%N ->
  (forall i j, i != j -> W i j = 0) -> (forall i, Rle 0 (W i i)) ->
  Rlt eps (norm_f r dot (map_mx r (x1 - x))) ->
  weighted_nls_f r dot (fun A b => ldlt_mx (piv A) rs msub A b) hF HF y W eps fuel H x x1 = Ret (H', x', x1', J') ->
  let v := Rmult (INR N + 1) u64 in
  let sv := Rmult 9 (Rmult (Rplus (INR n) 2) u64) in
  let E := Rplus (Rmult (Rdiv 101 100) eps) (sqrt tiny64) in
  let A := H'^T *m W *m H' in
  exists xp, [/\ H' = HF xp, x1' = x', Rle (len (x' - xp)) E,
    Rle (Rabs (Rminus J' (Rmult (Rdiv 1 2) (sq (y - H' *m x'))))) (Rmult (Rmult 10 v) (Rplus (sq (resid_size H' y x')) tiny64)) &
    forall l Y, Rlt 0 l -> Rle l 1 -> Rle 0 Y -> sound_diag W l Y H' (y - hF xp) ->
    Rle (Rmult (Rmult 2 (INR n)) (Rplus (Rmult 2 sv) (Rmult 12 v))) l ->
    forall i, Rle (Rabs ((H'^T *m W *m (y - hF xp)) i 0)) (Rmult (sqrt (A i i))
      (Rplus (Rmult (Rmult 2 (sqrt (\sum_j A j j))) (Rplus E (Rplus (Rmult (Rmult 2 u64) (len x')) (sqrt tiny64))))
             (Rmult (Rmult 26 v) Y)))].
Proof.
  move=> r rs dot msub N m n piv hF HF y W eps fuel H x x1 H' x' x1' J' Hr Hs Hd Hms HN Hn Hm n0 Wo W0 Er El v sv E A.
  have q1 : Rle 1 2 by lra.
  have [xp [E1 E2 E3 E4 G]] := wnls_last Hr Hs Hd Hms HN Hn Hm n0 (diag_psd Wo W0) q1 Er El.
  exists xp. split=> // l Y L0 L1 Y0 SD HE i.
  have T1 : Rmult 6 2 = IZR 12 by lra. have T2 : Rmult 13 2 = IZR 26 by lra.
  rewrite T1 T2 in G. exact: (G l Y L0 L1 (sound_of_diag Wo W0 Y0 SD) HE i).
Qed.
Print Assumptions C162_diagonal_weights.
(** The runs of C160_case and C161_case. *)
Example C162_case : forall piv : 'M[R]_1 -> 'S_1,
  (exists H' x' J' xp, unweighted_nls_f rnd64 (@dot_loop rnd64) (fun A b => ldlt_mx (piv A) rnd53 (msub_loop rnd53) A b) sqf sqH (pairv (9 / 8) (3 / 4)) (1 / 100000000000) 41 (sqH 0) (one1 (3 / 2)) (one1 0) = Ret (H', x', x', J') /\
    H' = sqH xp /\ Rle (Rabs ((H'^T *m (pairv (9 / 8) (3 / 4) - sqf xp)) 0 0)) (1 / 2500000000)) /\
  (exists H' x' J' xp, weighted_nls_f rnd64 (@dot_loop rnd64) (fun A b => ldlt_mx (piv A) rnd53 (msub_loop rnd53) A b) sqf sqH (pairv (9 / 8) (15 / 16)) w14 (1 / 100000000000) 41 (sqH 0) (one1 (3 / 2)) (one1 0) = Ret (H', x', x', J') /\
    H' = sqH xp /\ sound_diag w14 1 2 H' (pairv (9 / 8) (15 / 16) - sqf xp) /\ Rle (Rabs ((H'^T *m w14 *m (pairv (9 / 8) (15 / 16) - sqf xp)) 0 0)) (1 / 2500000000)).
Proof. move=> piv. split; [exact: sqf_last|exact: wsqf_last]. Qed.
