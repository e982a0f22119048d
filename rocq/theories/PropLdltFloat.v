(** Claims about Eigen's LDLT solver in double arithmetic, as used by
    src/filter/BatchLeastSquares.cpp 38 and 77. *)
From Coq Require Import Reals Lra.
From mathcomp Require Import all_ssreflect all_fingroup all_algebra.
From Verif Require Import Base BaseMx ModelLdltFloat ModelLdltMx ModelFilterFloat ModelBlsFloat SpecFloatOps SpecKalman SpecBls SpecLdltFloat SpecFilterFloat SpecUpdateFloat SpecBlsFloat
  ProofMx ProofFilterFloat ProofUpdateFloat ProofLdlt6 ProofLdlt7 ProofLdlt8 ProofLdlt9 ProofBlsFloat3.
Set Implicit Arguments.
Unset Strict Implicit.
Unset Printing Implicit Defensive.
Import GRing.Theory.
Local Open Scope ring_scope.
Local Open Scope outcome_scope.

(** C153.  No pivot is zero and the result is exact for a matrix close to the one
    given, in whatever order the pivots are taken. *)
Theorem C153_backward_stable : forall r msub n (p : 'S_n) (A : 'M[R]_n) (b : 'cV[R]_n) l,
  rel_ok r -> msub_ok msub -> Rle (INR n) 1000000 -> (forall i, Rlt 0 (A i i)) -> apart l (lower A) -> Rlt 0 l -> Rle l 1 ->
  Rle (Rmult 11 (Rmult (INR n) (Rmult (INR n + 2) u64))) l ->
  exists x, ldlt_mx p r msub A b = Ret x /\ solved (Rmult 9 (Rmult (INR n + 2) u64)) A b x.
Proof. move=> r msub n p A b l Hr Hm Hn A0 AP L0 L1 L2. exact: (@ldlt_mx_solved n p A r msub l). Qed.
Print Assumptions C153_backward_stable.

(** Least squares without weights: nothing is assumed of the solver. *)
Theorem C153_unweighted_error : forall r dot msub N m n (p : 'S_n) (H : 'M[R]_(m, n)) (y : 'cV[R]_m) l,
  rel_ok r -> dot_ok dot -> msub_ok msub -> Rle (INR N) 1000000 -> (n <= N)%N -> (m <= N)%N -> Rlt 0 l -> Rle l 1 ->
  apart l (H^T *m H) -> (forall i, Rle tiny64 ((H^T *m H) i i)) -> Rle tiny64 (sq y) ->
  let v := Rmult (INR N + 1) u64 in
  let c := Rdiv (INR n) l in
  let e := Rplus (Rmult 18 (Rmult (INR n + 2) u64)) (Rmult 6 v) in
  Rle (Rmult (Rmult 2 (INR n)) e) l ->
  exists (xf : 'cV[R]_n) Jf (x : 'cV[R]_n), unweighted_f r dot (ldlt_mx p r msub) y H = Ret (xf, Jf) /\
    (forall z, Rle (sq (y - H *m x)) (sq (y - H *m z))) /\ (forall z, Rle (sq (y - H *m z)) (sq (y - H *m x)) -> z = x) /\
    Rle (len (H *m (xf - x))) (Rmult (Rmult 4 (Rmult e c)) (len y)) /\
    (forall i, Rle (Rmult (sqrt (Rmult l ((H^T *m H) i i))) (Rabs (Rminus (xf i 0) (x i 0)))) (Rmult (Rmult 4 (Rmult e c)) (len y))) /\
    Rle (sq (y - H *m xf)) (Rplus (sq (y - H *m x)) (Rmult (Rmult (Rmult 4 (Rmult e c)) (Rmult 4 (Rmult e c))) (sq y))) /\
    Rle (Rabs (Rminus Jf (Rmult (Rdiv 1 2) (sq (y - H *m x))))) (Rmult (Rplus (Rmult (Rplus 70 (Rmult 300 c)) v) (Rmult 8 (Rmult (Rmult e c) (Rmult e c)))) (sq y)).
Proof.
  move=> r dot msub N m n p H y l Hr Hd Hs HN Hn Hm L0 L1 AP T TY v c e HE.
  have EE : e = Rplus (Rmult 2 (Rmult 9 (Rmult (INR n + 2) u64))) (Rmult 6 v) by exact: two_nine.
  rewrite EE in HE *.
  have [xf [Jf [EF SF]]] := ldlt_unweighted p Hr Hd Hs HN Hn Hm L0 L1 AP T TY HE.
  have HS x' : ldlt_mx p r msub (normal_f dot H) (rhs_f dot H y) = Ret x' -> solved (Rmult 9 (Rmult (INR n + 2) u64)) (normal_f dot H) (rhs_f dot H y) x'.
  { move: EF. rewrite /unweighted_f => EF E'. move: EF. by rewrite E' /= => -[-> _]. }
  have [x B] := unweighted_bound (rel_rnd Hr) Hd HN Hn Hm L0 L1 (s_ge0 n) AP T TY HS EF HE.
  by exists xf, Jf, x.
Qed.
Print Assumptions C153_unweighted_error.

(** With weights on the diagonal. *)
Theorem C153_weighted_error : forall r dot msub N m n (p : 'S_n) (H : 'M[R]_(m, n)) (y : 'cV[R]_m) (W : 'M[R]_m) l,
  rel_ok r -> dot_ok dot -> msub_ok msub -> Rle (INR N) 1000000 -> (n <= N)%N -> (m <= N)%N -> Rlt 0 l -> Rle l 1 ->
  (forall i j, i != j -> W i j = 0) -> (forall i, Rle 0 (W i i)) ->
  let A := H^T *m W *m H in
  apart l A ->
  (forall i j, Rle (Rmult tiny64 (Rplus 1 (\sum_k Rabs (H k j)))) (A i i)) ->
  (forall i, Rle (Rmult tiny64 (Rplus 1 (\sum_k Rabs (y k 0)))) (A i i)) -> Rle (Rmult tiny64 (Rplus 1 (\sum_k Rabs (y k 0)))) (qf W y) ->
  let v := Rmult (INR N + 1) u64 in
  let c := Rdiv (INR n) l in
  let e := Rplus (Rmult 18 (Rmult (INR n + 2) u64)) (Rmult (Rmult 6 2) v) in
  Rle (Rmult (Rmult 2 (INR n)) e) l ->
  exists (xf : 'cV[R]_n) Jf (x : 'cV[R]_n), weighted_f r dot (ldlt_mx p r msub) y H W = Ret (xf, Jf) /\
    best_fit W H y x /\ (forall z, best_fit W H y z -> z = x) /\
    Rle (sqrt (qf W (H *m (xf - x)))) (Rmult (Rmult 4 (Rmult e c)) (sqrt (qf W y))) /\
    (forall i, Rle (Rmult (sqrt (Rmult l (A i i))) (Rabs (Rminus (xf i 0) (x i 0)))) (Rmult (Rmult 4 (Rmult e c)) (sqrt (qf W y)))) /\
    Rle (qf W (y - H *m xf)) (Rplus (qf W (y - H *m x)) (Rmult (Rmult (Rmult 4 (Rmult e c)) (Rmult 4 (Rmult e c))) (qf W y))) /\
    Rle (Rabs (Rminus Jf (Rmult (Rdiv 1 2) (sq (y - H *m xf))))) (Rmult (Rmult 10 v) (Rplus (sq (resid_size H y xf)) tiny64)).
Proof.
  move=> r dot msub N m n p H y W l Hr Hd Hs HN Hn Hm L0 L1 Wo W0 A AP T1 T2 T3 v c e HE.
  have EE : e = Rplus (Rmult 2 (Rmult 9 (Rmult (INR n + 2) u64))) (Rmult (Rmult 6 2) v) by exact: two_nine.
  rewrite EE in HE *. have SN := diag_size_normal Wo W0 T1.
  have [xf [Jf [EF SF]]] := ldlt_weighted p Hr Hd Hs HN Hn Hm y L0 L1 (diag_psd Wo W0) AP one_two SN HE.
  have HS x' : ldlt_mx p r msub (wnormal_f dot H W) (wrhs_f dot H W y) = Ret x' -> solved (Rmult 9 (Rmult (INR n + 2) u64)) (wnormal_f dot H W) (wrhs_f dot H W y) x'.
  { move: EF. rewrite /weighted_f => EF E'. move: EF. by rewrite E' /= => -[-> _]. }
  have [x B] := weighted_bound (rel_rnd Hr) Hd HN Hn Hm L0 L1 (s_ge0 n) (diag_psd Wo W0) AP one_two SN (diag_size_rhs Wo W0 T2 T3) HS EF HE.
  by exists xf, Jf, x.
Qed.
Print Assumptions C153_weighted_error.

(** Without rounding the solver solves the system, whatever the signs of the pivots. *)
Theorem C153_exact_arithmetic : forall n (p : 'S_n) (A : 'M[R]_n) (b x : 'cV[R]_n),
  ldlt_mx p id (fun c k u w => Rminus c (sum (fun j => Rmult (u j) (w j)) k)) A b = Ret x -> lower A *m x = b.
Proof. exact ldlt_mx_exact. Qed.
Print Assumptions C153_exact_arithmetic.

(** Rounding to 53 bits and the plain loop meet the assumptions. *)
Theorem C153_arithmetic : rel_ok rnd53 /\ (forall r, rel_ok r -> msub_ok (msub_loop r)) /\ (forall r, rel_ok r -> dot_ok (@dot_loop r)).
Proof. split; [exact: rnd53_rel|split; [exact: msub_loop_ok|by move=> r Hr; apply: dot_loop_ok; exact: rel_rnd]]. Qed.
Print Assumptions C153_arithmetic.

(** The line through the readings 1, 2, 2 at the times 0, 1, 2. *)
Example C153_case : exists (xf : 'cV[R]_2) Jf, unweighted_f rnd53 (@dot_loop rnd53) (ldlt_mx 1%g rnd53 (msub_loop rnd53)) read3 line3 = Ret (xf, Jf) /\
  Rle (Rabs (Rminus (xf 0 0) (Rdiv 7 6))) (Rdiv 2 1000000000000) /\ Rle (Rabs (Rminus (xf 1 0) (Rdiv 1 2))) (Rdiv 2 1000000000000).
Proof. exact line_case. Qed.
