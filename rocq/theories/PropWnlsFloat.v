(** Claim about the weighted nonlinear least squares of
    src/filter/BatchLeastSquares.cpp in double arithmetic: from a start close
    enough to the solution it ends, close to the solution. *)
From Coq Require Import Reals Lra.
From mathcomp Require Import all_ssreflect all_fingroup all_algebra.
From Verif Require Import Base BaseMx ModelEigen ModelKalman ModelBls ModelDate ModelFilterFloat ModelBlsFloat ModelLdltMx ModelLdltFloat ModelNlsFloat SpecFloatOps SpecKalman SpecFilter SpecBls SpecFilterFloat SpecUpdateFloat SpecBlsFloat SpecLdltFloat SpecNlsFloat SpecWnlsFloat
  ProofMx ProofBlsFloat3 ProofLdlt8 ProofGaussNewton ProofNlsCase ProofWnlsFloat ProofWnlsCase.
Set Implicit Arguments.
Unset Strict Implicit.
Unset Printing Implicit Defensive.
Import GRing.Theory.
Local Open Scope ring_scope.
Local Open Scope outcome_scope.

(** C161.  One step, for any positive semidefinite weights and a solver of known
    accuracy. *)
Theorem C161_step : forall (r : R -> R) (dot : dot_fun) (N m n : nat) solve (W : 'M[R]_m) q hF HF (y hs : 'cV[R]_m) (xs : 'cV[R]_n) s l t0 t1 g0 g1 Y X rho sv (x : 'cV[R]_n),
  rnd_ok r -> dot_ok dot -> Rle (INR N) 1000000 -> (n <= N)%N -> (m <= N)%N -> (0 < n)%N -> psd W -> Rle 1 q ->
  tame_w W q hF HF y hs xs s l t0 t1 g0 g1 Y rho -> solves_w r dot solve W hF HF y xs rho sv ->
  Rlt 0 s -> Rlt 0 l -> Rle l 1 -> Rle 0 sv -> Rle 0 t0 /\ Rle 0 t1 /\ Rle 0 g0 /\ Rle 0 g1 ->
  Rle 0 Y -> Rle (sqrt tiny64) X -> Rle (len xs) X ->
  let e := Rplus (Rmult 2 sv) (Rmult (Rmult 6 q) (Rmult (Rplus (INR N) 1) u64)) in Rle (Rmult (Rmult 2 (INR n)) e) l ->
  Rle (len (x - xs)) rho ->
  exists x', wnls_step_f r dot solve hF HF y W x = Ret x' /\
  Rle (len (x' - xs)) (Rplus (Rmult (rate s t1 g1) (len (x - xs))) (noise s t0 g0 (Rmult e (Rdiv (INR n) l)) Y X)).
Proof.
  move=> r dot N m n solve W q hF HF y hs xs s l t0 t1 g0 g1 Y X rho sv x Hr Hd HN Hn Hm n0 HW q1 T HS s0 L0 L1 sv0 P0 Y0 HX Xs e He B.
  exact: (wstep_f_ok Hr Hd HN Hn Hm n0 HW q1 T HS s0 L0 L1 sv0 P0 Y0 HX Xs He B).
Qed.
Print Assumptions C161_step.
(** The call, for any positive semidefinite weights, with Eigen's LDLT algorithm,
    its pivots in any order; its operations neither underflow nor overflow. *)
Theorem C161_any_weights : forall (r rs : R -> R) (dot : dot_fun) msub (N m n : nat) (piv : 'M[R]_n -> 'S_n) (W : 'M[R]_m) q hF HF (y hs : 'cV[R]_m) (xs : 'cV[R]_n) s l t0 t1 g0 g1 Y X rho eps j fuel H (x x1 : 'cV[R]_n),
  rnd_ok r -> rel_ok rs -> dot_ok dot -> msub_ok msub -> Rle (INR N) 1000000 -> (n <= N)%N -> (m <= N)%N -> (0 < n)%N -> psd W -> Rle 1 q ->
  tame_w W q hF HF y hs xs s l t0 t1 g0 g1 Y rho ->
  Rlt 0 s -> Rlt 0 l -> Rle l 1 -> Rle 0 t0 /\ Rle 0 t1 /\ Rle 0 g0 /\ Rle 0 g1 ->
  Rle 0 Y -> Rle (sqrt tiny64) X -> Rle (len xs) X ->
  let sv := Rmult 9 (Rmult (Rplus (INR n) 2) u64) in
  let e := Rplus (Rmult 2 sv) (Rmult (Rmult 6 q) (Rmult (Rplus (INR N) 1) u64)) in Rle (Rmult (Rmult 2 (INR n)) e) l ->
  let k := rate s t1 g1 in let t := noise s t0 g0 (Rmult e (Rdiv (INR n) l)) Y X in
  Rlt k 1 -> Rle (Rplus (Rmult k rho) t) rho ->
  (j < fuel)%N -> Rlt eps (norm_f r dot (map_mx r (x1 - x))) -> Rle (len (x - xs)) rho ->
  Rle (Rplus (Rmult (Rdiv 101 100) (Rplus (Rmult (Rmult (Rplus 1 k) (pow k j)) (len (x - xs))) (Rmult 2 (Rdiv t (Rminus 1 k))))) (sqrt tiny64)) eps ->
  exists H' x' J', weighted_nls_f r dot (fun A b => ldlt_mx (piv A) rs msub A b) hF HF y W eps fuel H x x1 = Ret (H', x', x', J') /\
  Rle (len (x' - xs)) (Rdiv (Rplus (Rmult k (Rplus (Rmult (Rdiv 101 100) eps) (sqrt tiny64))) t) (Rminus 1 k)).
Proof.
  move=> r rs dot msub N m n piv W q hF HF y hs xs s l t0 t1 g0 g1 Y X rho eps j fuel H x x1 Hr Hs Hd Hms HN Hn Hm n0 HW q1 T s0 L0 L1 P0 Y0 HX Xs sv e He k t k1 Bl Hj Er B E.
  have HS := @ldlt_solves_w r rs dot msub N m n piv W q hF HF y hs xs s l t0 t1 g0 g1 Y rho Hs Hd Hms HN Hn Hm L0 L1 HW q1 T He.
  have sv0 : Rle 0 sv by apply: Rmult_le_pos; [lra|apply: Rmult_le_pos; [have := pos_INR n; lra|have [? _] := ProofStrapdownFloat.u64_bounds; lra]].
  exact: (wnls_f_converges Hr Hd HN Hn Hm n0 HW q1 T HS s0 L0 L1 sv0 P0 Y0 HX Xs He k1 Bl H Hj Er B E).
Qed.
Print Assumptions C161_any_weights.
(** Weights on the diagonal. *)
Theorem C161_diagonal_weights : forall (r rs : R -> R) (dot : dot_fun) msub (N m n : nat) (piv : 'M[R]_n -> 'S_n) (W : 'M[R]_m) hF HF (y hs : 'cV[R]_m) (xs : 'cV[R]_n) s l t0 t1 g0 g1 Y X rho eps j fuel H (x x1 : 'cV[R]_n),
  rnd_ok r -> rel_ok rs -> dot_ok dot -> msub_ok msub -> Rle (INR N) 1000000 -> (n <= N)%N -> (m <= N)%N -> (0 < n)%N ->
  (forall i j, i != j -> W i j = 0) -> (forall i, Rle 0 (W i i)) ->
  tame_d W hF HF y hs xs s l t0 t1 g0 g1 Y rho ->
  Rlt 0 s -> Rlt 0 l -> Rle l 1 -> Rle 0 t0 /\ Rle 0 t1 /\ Rle 0 g0 /\ Rle 0 g1 ->
  Rle 0 Y -> Rle (sqrt tiny64) X -> Rle (len xs) X ->
  let sv := Rmult 9 (Rmult (Rplus (INR n) 2) u64) in
  let e := Rplus (Rmult 2 sv) (Rmult (Rmult 6 2) (Rmult (Rplus (INR N) 1) u64)) in Rle (Rmult (Rmult 2 (INR n)) e) l ->
  let k := rate s t1 g1 in let t := noise s t0 g0 (Rmult e (Rdiv (INR n) l)) Y X in
  Rlt k 1 -> Rle (Rplus (Rmult k rho) t) rho ->
  (j < fuel)%N -> Rlt eps (norm_f r dot (map_mx r (x1 - x))) -> Rle (len (x - xs)) rho ->
  Rle (Rplus (Rmult (Rdiv 101 100) (Rplus (Rmult (Rmult (Rplus 1 k) (pow k j)) (len (x - xs))) (Rmult 2 (Rdiv t (Rminus 1 k))))) (sqrt tiny64)) eps ->
  exists H' x' J', weighted_nls_f r dot (fun A b => ldlt_mx (piv A) rs msub A b) hF HF y W eps fuel H x x1 = Ret (H', x', x', J') /\
  Rle (len (x' - xs)) (Rdiv (Rplus (Rmult k (Rplus (Rmult (Rdiv 101 100) eps) (sqrt tiny64))) t) (Rminus 1 k)).
Proof.
  move=> r rs dot msub N m n piv W hF HF y hs xs s l t0 t1 g0 g1 Y X rho eps j fuel H x x1 Hr Hs Hd Hms HN Hn Hm n0 Wo W0 T s0 L0 L1 P0 Y0 HX Xs sv e He k t k1 Bl Hj Er B E.
  have q1 : Rle 1 2 by lra.
  exact: (C161_any_weights piv H Hr Hs Hd Hms HN Hn Hm n0 (diag_psd Wo W0) q1 (tame_diag Wo W0 Y0 T) s0 L0 L1 P0 Y0 HX Xs He k1 Bl Hj Er B E).
Qed.
Print Assumptions C161_diagonal_weights.
(** Without rounding the function computed here is the one of the other claims. *)
Theorem C161_exact : forall (ldlt : solver) m n (solve : 'M[R]_n -> 'cV[R]_n -> outcome 'cV[R]_n) p q (hF : 'cV[R]_n -> 'cV[R]_m) (HF : 'cV[R]_n -> 'M[R]_(m, n)) (y : 'cV[R]_m) (W : 'M[R]_m) eps fuel (H : 'M[R]_(m, n)) (x x1 : 'cV[R]_n) J,
  (n <= m)%N -> (forall A b, ldlt (DM A) (DV b) = (x <- solve A b ;; Ret (DV x))) -> predicts p hF -> linearizes q HF ->
  WeightedNonlinearLeastSquares fuel ldlt p q (DV y) (DM H) (DV x) (DM W) eps (DV x1) J =
  (s <- weighted_nls_f id (fun k a b => \sum_(i < k) a i * b i) solve hF HF y W eps fuel H x x1 ;; Ret (true, (DM s.1.1.1, DV s.1.1.2, DV s.1.2, s.2))).
Proof. exact exact_wnls. Qed.
Print Assumptions C161_exact.
(** A value, with weight 4, and its square, with weight 1, measured with errors
    (1/8, -1/16): from 3/2, with eps = 10^-11, 41 iterations suffice. *)
Example C161_case : forall piv : 'M[R]_1 -> 'S_1,
  tame_d w14 sqf sqH (pairv (9 / 8) (15 / 16)) (pairv 1 1) (one1 1) 2 1 (Rmult 3 u64) (1 / 2) 0 (1 / 4) 2 (1 / 2) /\
  exists H' x' J', weighted_nls_f rnd64 (@dot_loop rnd64) (fun A b => ldlt_mx (piv A) rnd53 (msub_loop rnd53) A b) sqf sqH (pairv (9 / 8) (15 / 16)) w14 (1 / 100000000000) 41 (sqH 0) (one1 (3 / 2)) (one1 0) = Ret (H', x', x', J') /\
  Rle (Rabs (Rminus (x' 0 0) 1)) (3 / 200000000000).
Proof. move=> piv. split; [exact: wsqf_tame|exact: wsqf_case]. Qed.
