(** Claim about the unweighted nonlinear least squares of
    src/filter/BatchLeastSquares.cpp in double arithmetic: from a start close
    enough to the solution it ends, close to the solution. *)
From Coq Require Import Reals Lra.
From mathcomp Require Import all_ssreflect all_fingroup all_algebra.
From Verif Require Import Base BaseMx ModelEigen ModelKalman ModelBls ModelDate ModelFilterFloat ModelBlsFloat ModelLdltMx ModelLdltFloat ModelNlsFloat SpecFloatOps SpecKalman SpecFilter SpecBls SpecFilterFloat SpecUpdateFloat SpecBlsFloat SpecLdltFloat SpecNlsFloat
  ProofMx ProofBlsFloat ProofLdlt8 ProofGaussNewton ProofNlsFloat ProofNlsFloat2 ProofNlsCase.
Set Implicit Arguments.
Unset Strict Implicit.
Unset Printing Implicit Defensive.
Import GRing.Theory.
Local Open Scope ring_scope.
Local Open Scope outcome_scope.

(** C160.  One step: the error of the new estimate is at most [rate] times the
    error of the old one plus [noise]. *)
Theorem C160_step : forall (r : R -> R) (dot : dot_fun) (N m n : nat) solve hF HF (y hs : 'cV[R]_m) (xs : 'cV[R]_n) s l t0 t1 g0 g1 Y X rho sv (x : 'cV[R]_n),
  rnd_ok r -> dot_ok dot -> Rle (INR N) 1000000 -> (n <= N)%N -> (m <= N)%N -> (0 < n)%N ->
  tame_f hF HF y hs xs s l t0 t1 g0 g1 Y rho -> solves_in r dot solve hF HF y xs rho sv ->
  Rlt 0 s -> Rlt 0 l -> Rle l 1 -> Rle 0 sv -> Rle 0 t0 /\ Rle 0 t1 /\ Rle 0 g0 /\ Rle 0 g1 ->
  Rle (sqrt tiny64) Y -> Rle (sqrt tiny64) X -> Rle (len xs) X ->
  let e := Rplus (Rmult 2 sv) (Rmult 6 (Rmult (Rplus (INR N) 1) u64)) in Rle (Rmult (Rmult 2 (INR n)) e) l ->
  Rle (len (x - xs)) rho ->
  exists x', nls_step_f r dot solve hF HF y x = Ret x' /\
  Rle (len (x' - xs)) (Rplus (Rmult (rate s t1 g1) (len (x - xs))) (noise s t0 g0 (Rmult e (Rdiv (INR n) l)) Y X)).
Proof.
  move=> r dot N m n solve hF HF y hs xs s l t0 t1 g0 g1 Y X rho sv x Hr Hd HN Hn Hm n0 T HS s0 L0 L1 sv0 P0 HY HX Xs e He B.
  exact: (step_f_ok Hr Hd HN Hn Hm n0 T HS s0 L0 L1 sv0 P0 HY HX Xs He B).
Qed.
Print Assumptions C160_step.
(** The call: it returns after at most j + 1 iterations if eps is larger than the
    length of the correction the bound leaves after j of them, and what it returns
    is close to xs.  The solver's accuracy is a hypothesis. *)
Theorem C160_converges : forall (r : R -> R) (dot : dot_fun) (N m n : nat) solve hF HF (y hs : 'cV[R]_m) (xs : 'cV[R]_n) s l t0 t1 g0 g1 Y X rho sv eps j fuel H (x x1 : 'cV[R]_n),
  rnd_ok r -> dot_ok dot -> Rle (INR N) 1000000 -> (n <= N)%N -> (m <= N)%N -> (0 < n)%N ->
  tame_f hF HF y hs xs s l t0 t1 g0 g1 Y rho -> solves_in r dot solve hF HF y xs rho sv ->
  Rlt 0 s -> Rlt 0 l -> Rle l 1 -> Rle 0 sv -> Rle 0 t0 /\ Rle 0 t1 /\ Rle 0 g0 /\ Rle 0 g1 ->
  Rle (sqrt tiny64) Y -> Rle (sqrt tiny64) X -> Rle (len xs) X ->
  let e := Rplus (Rmult 2 sv) (Rmult 6 (Rmult (Rplus (INR N) 1) u64)) in Rle (Rmult (Rmult 2 (INR n)) e) l ->
  let k := rate s t1 g1 in let t := noise s t0 g0 (Rmult e (Rdiv (INR n) l)) Y X in
  Rlt k 1 -> Rle (Rplus (Rmult k rho) t) rho ->
  (j < fuel)%N -> Rlt eps (norm_f r dot (map_mx r (x1 - x))) -> Rle (len (x - xs)) rho ->
  Rle (Rplus (Rmult (Rdiv 101 100) (Rplus (Rmult (Rmult (Rplus 1 k) (pow k j)) (len (x - xs))) (Rmult 2 (Rdiv t (Rminus 1 k))))) (sqrt tiny64)) eps ->
  exists H' x' J', unweighted_nls_f r dot solve hF HF y eps fuel H x x1 = Ret (H', x', x', J') /\
  Rle (len (x' - xs)) (Rdiv (Rplus (Rmult k (Rplus (Rmult (Rdiv 101 100) eps) (sqrt tiny64))) t) (Rminus 1 k)).
Proof.
  move=> r dot N m n solve hF HF y hs xs s l t0 t1 g0 g1 Y X rho sv eps j fuel H x x1 Hr Hd HN Hn Hm n0 T HS s0 L0 L1 sv0 P0 HY HX Xs e He k t k1 Bl Hj Er B E.
  exact: (nls_f_converges Hr Hd HN Hn Hm n0 T HS s0 L0 L1 sv0 P0 HY HX Xs He k1 Bl H Hj Er B E).
Qed.
Print Assumptions C160_converges.
(** The same with Eigen's LDLT algorithm, its pivots in any order, in place of a
    solver of assumed accuracy; its operations neither underflow nor overflow. *)
Theorem C160_ldlt : forall (r rs : R -> R) (dot : dot_fun) msub (N m n : nat) (piv : 'M[R]_n -> 'S_n) hF HF (y hs : 'cV[R]_m) (xs : 'cV[R]_n) s l t0 t1 g0 g1 Y X rho eps j fuel H (x x1 : 'cV[R]_n),
  rnd_ok r -> rel_ok rs -> dot_ok dot -> msub_ok msub -> Rle (INR N) 1000000 -> (n <= N)%N -> (m <= N)%N -> (0 < n)%N ->
  tame_f hF HF y hs xs s l t0 t1 g0 g1 Y rho ->
  Rlt 0 s -> Rlt 0 l -> Rle l 1 -> Rle 0 t0 /\ Rle 0 t1 /\ Rle 0 g0 /\ Rle 0 g1 ->
  Rle (sqrt tiny64) Y -> Rle (sqrt tiny64) X -> Rle (len xs) X ->
  let sv := Rmult 9 (Rmult (Rplus (INR n) 2) u64) in
  let e := Rplus (Rmult 2 sv) (Rmult 6 (Rmult (Rplus (INR N) 1) u64)) in Rle (Rmult (Rmult 2 (INR n)) e) l ->
  let k := rate s t1 g1 in let t := noise s t0 g0 (Rmult e (Rdiv (INR n) l)) Y X in
  Rlt k 1 -> Rle (Rplus (Rmult k rho) t) rho ->
  (j < fuel)%N -> Rlt eps (norm_f r dot (map_mx r (x1 - x))) -> Rle (len (x - xs)) rho ->
  Rle (Rplus (Rmult (Rdiv 101 100) (Rplus (Rmult (Rmult (Rplus 1 k) (pow k j)) (len (x - xs))) (Rmult 2 (Rdiv t (Rminus 1 k))))) (sqrt tiny64)) eps ->
  exists H' x' J', unweighted_nls_f r dot (fun A b => ldlt_mx (piv A) rs msub A b) hF HF y eps fuel H x x1 = Ret (H', x', x', J') /\
  Rle (len (x' - xs)) (Rdiv (Rplus (Rmult k (Rplus (Rmult (Rdiv 101 100) eps) (sqrt tiny64))) t) (Rminus 1 k)).
Proof.
  move=> r rs dot msub N m n piv hF HF y hs xs s l t0 t1 g0 g1 Y X rho eps j fuel H x x1 Hr Hs Hd Hms HN Hn Hm n0 T s0 L0 L1 P0 HY HX Xs sv e He k t k1 Bl Hj Er B E.
  have HS := @ldlt_solves_in r rs dot msub N m n piv hF HF y hs xs s l t0 t1 g0 g1 Y rho Hs Hd Hms HN Hn Hm L0 L1 T He.
  have sv0 : Rle 0 sv by apply: Rmult_le_pos; [lra|apply: Rmult_le_pos; [have := pos_INR n; lra|have [? _] := ProofStrapdownFloat.u64_bounds; lra]].
  exact: (nls_f_converges Hr Hd HN Hn Hm n0 T HS s0 L0 L1 sv0 P0 HY HX Xs He k1 Bl H Hj Er B E).
Qed.
Print Assumptions C160_ldlt.
(** Without rounding the function computed here is the one of the other claims. *)
Theorem C160_exact : forall (ldlt : solver) m n (solve : 'M[R]_n -> 'cV[R]_n -> outcome 'cV[R]_n) p q (hF : 'cV[R]_n -> 'cV[R]_m) (HF : 'cV[R]_n -> 'M[R]_(m, n)) (y : 'cV[R]_m) eps fuel (H : 'M[R]_(m, n)) (x x1 : 'cV[R]_n) J,
  (n <= m)%N -> (forall A b, ldlt (DM A) (DV b) = (x <- solve A b ;; Ret (DV x))) -> predicts p hF -> linearizes q HF ->
  UnweightedNonlinearLeastSquares fuel ldlt p q (DV y) (DM H) (DV x) eps (DV x1) J =
  (s <- unweighted_nls_f id (fun k a b => \sum_(i < k) a i * b i) solve hF HF y eps fuel H x x1 ;; Ret (true, (DM s.1.1.1, DV s.1.1.2, DV s.1.2, s.2))).
Proof. exact exact_nls. Qed.
Print Assumptions C160_exact.
(** The tolerance has to exceed the errors of the user's model: with a model that
    is exact except at 0, where it errs by 1, the estimates alternate between 0
    and 1, and with any eps below 1 the loop does not end. *)
Theorem C160_noise_refuted : exists hF HF (y hs : 'cV[R]_1) (xs x x1 : 'cV[R]_1),
  tame_f hF HF y hs xs 1 1 1 0 0 0 1 1 /\ Rle (len (x - xs)) 1 /\
  forall eps fuel H, Rlt eps 1 -> unweighted_nls_f rnd64 (@dot_loop rnd64) (solve1_f rnd64) hF HF y eps fuel H x x1 = NoFuel.
Proof.
  exists zero_one, unit_lin, 0, 0, 0, (c1 0), (c1 1). split; first exact: cycle_tame. split; last by move=> *; exact: cycle_call.
  rewrite len_one !mxE Rabs_pos_eq; toR; lra.
Qed.
Print Assumptions C160_noise_refuted.
(** A value and its square, the square rounded, measured with errors (1/8, -1/4):
    from 3/2, with eps = 10^-11, 41 iterations suffice. *)
Example C160_case : forall piv : 'M[R]_1 -> 'S_1,
  tame_f sqf sqH (pairv (9 / 8) (3 / 4)) (pairv 1 1) (one1 1) (7 / 5) 1 (Rmult 3 u64) (1 / 2) 0 (1 / 4) 2 (1 / 2) /\
  exists H' x' J', unweighted_nls_f rnd64 (@dot_loop rnd64) (fun A b => ldlt_mx (piv A) rnd53 (msub_loop rnd53) A b) sqf sqH (pairv (9 / 8) (3 / 4)) (1 / 100000000000) 41 (sqH 0) (one1 (3 / 2)) (one1 0) = Ret (H', x', x', J') /\
  Rle (Rabs (Rminus (x' 0 0) 1)) (3 / 200000000000).
Proof. move=> piv. split; [exact: sqf_tame|exact: sqf_case]. Qed.
