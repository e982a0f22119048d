(** An unscented update of one state in doubles. *)
From Coq Require Import Reals Arith Lra Psatz.
From mathcomp Require Import all_ssreflect all_algebra.
From Verif Require Import Base BaseMx ModelEigen ModelKalman ModelDate ModelLdltFloat ModelLuFloat ModelLuMx ModelFilterFloat ModelUkfFloat SpecFloatOps SpecKalman SpecBls SpecFilterFloat SpecLdltFloat SpecUpdateFloat SpecLuFloat SpecUkfFloat SpecUkfUpdate
  ProofMx ProofKalman ProofKalman2 ProofKalman4 ProofFilterFloat ProofUpdateFloat ProofStrapdownFloat ProofLdlt7 ProofLdlt8 ProofLuMx ProofUkfFloat ProofUkfFloat2 ProofUkfFloat3 ProofUkfLu.
Set Implicit Arguments.
Unset Strict Implicit.
Unset Printing Implicit Defensive.
Import GRing.Theory.
Local Open Scope ring_scope.

Lemma keeps_meas m k (W : 'cV[R]_k) (Z : 'M[R]_(m, k)) (Rk : 'M[R]_m) s : distribution W -> Rle 0 s -> (forall y : 'cV[R]_m, Rle (Rmult s (sq y)) (qf Rk y)) -> keeps s (meas_cov W Z Rk).
Proof.
  move=> [D0 D1] S0 HR. have := @keeps_noise m m (cov (weights W) (points Z)) 1%:M Rk s S0 _ HR. rewrite trmx1 mulmx1 mul1mx /meas_cov addrC. apply.
  exact: cov_psd.
Qed.

Section Num.
Local Open Scope R_scope.
Lemma num_phi s e : 0 <= s <= / 10000000000000 -> e = 101 / 100 * ((1 + 1 + 1 + (1 + 1 + 1 + 1)) * u64) * (Rabs 1 + sqrt (9 / 2 + s * s) * sqrt (9 / 2 + s * s)) + s * s -> 0 <= e <= / 1000000000000.
Proof.
  move=> S E. split; last by apply: (@case_bound s) => //; lra. rewrite E. have := u64_bounds. have := Rabs_pos 1. have A := sqrt_pos (9 / 2 + s * s). move=> B U.
  apply: Rplus_le_le_0_compat; last by apply: Rmult_le_pos; lra. apply: Rmult_le_pos; first lra. apply: Rplus_le_le_0_compat => //. exact: Rmult_le_pos.
Qed.
Lemma num_cross s e : 0 <= s <= / 10000000000000 -> e = 101 / 100 * ((1 + 1 + 1 + (1 + 1 + 1 + 1)) * u64) * (sqrt (9 / 2) * sqrt (9 / 2 + s * s)) + Rabs (2 - 2) * s -> 0 <= e <= / 1000000000000.
Proof.
  move=> S E. have U := u64_bounds. have -> : e = 101 / 100 * (7 * u64) * (sqrt (9 / 2) * sqrt (9 / 2 + s * s)) by rewrite E Rminus_eq_0 Rabs_R0; ring.
  have s2 : s * s <= 1 by apply: Rle_trans (Rmult_le_compat _ _ _ _ (proj1 S) (proj1 S) (proj2 S) (proj2 S)) _; lra. have s3 : 0 <= s * s by apply: Rmult_le_pos; lra.
  have A : sqrt (9 / 2) <= 3. { rewrite -(sqrt_Rsqr 3); last lra. apply: sqrt_le_1_alt. rewrite /Rsqr. lra. }
  have B : sqrt (9 / 2 + s * s) <= 3. { rewrite -(sqrt_Rsqr 3); last lra. apply: sqrt_le_1_alt. rewrite /Rsqr. lra. }
  have A0 := sqrt_pos (9 / 2). have B0 := sqrt_pos (9 / 2 + s * s). have C := Rmult_le_compat _ _ _ _ A0 B0 A B. have C0 := Rmult_le_pos _ _ A0 B0.
  split; first by apply: Rmult_le_pos; lra. apply: Rle_trans (Rmult_le_compat _ (101 / 100 * (7 * (1 / 1000000000000000))) _ 9 _ _ _ _) _; lra.
Qed.
Lemma num_dK u t e c : 0 < u <= 1 / 1000000000000000 -> 0 < t <= 1 / 1000000000 -> 0 <= e <= 3 / 1000000000000 -> 0 <= c <= / 1000000000000 ->
  0 <= 3 * ((1 + 1 + 1 + 1) * u) * (2 / (11 / 2) * (9 / 2 + c) + t) + 2 / (11 / 2) * c + e / (11 / 2 * (11 / 2)) * (9 / 2) <= / 100000000000.
Proof.
  move=> U T E C. have Q : 0 <= 2 / (11 / 2) * (9 / 2 + c) + t <= 2 by lra. set q := 2 / (11 / 2) * (9 / 2 + c) + t in Q *.
  have A : 0 <= 3 * ((1 + 1 + 1 + 1) * u) * q by apply: Rmult_le_pos; lra. have B : 3 * ((1 + 1 + 1 + 1) * u) * q <= 3 * ((1 + 1 + 1 + 1) * (1 / 1000000000000000)) * 2 by apply: Rmult_le_compat; lra.
  have F : 0 <= e / (11 / 2 * (11 / 2)) * (9 / 2) <= 1 / 1000000000000 by lra. lra.
Qed.
Lemma num_var u t p d k : 0 < u <= 1 / 1000000000000000 -> 0 < t <= 1 / 1000000000 -> 0 <= p <= / 1000000000000 -> 0 <= d <= / 100000000000 -> 0 <= k <= 1 ->
  9 * ((1 + 1 + 1 + 1) * u) * (9 / 2 + ((k * (11 / 2 + p) + t) * k + t)) + (k * p * k + d * (9 / 2) + d * (9 / 2) + d * d * (11 / 2)) <= / 1000000000.
Proof.
  move=> U T P D K. have A : k * (11 / 2 + p) <= 1 * 6 by apply: Rmult_le_compat; lra. have A0 : 0 <= k * (11 / 2 + p) by apply: Rmult_le_pos; lra.
  have B : (k * (11 / 2 + p) + t) * k <= 7 * 1 by apply: Rmult_le_compat; lra. have B0 : 0 <= (k * (11 / 2 + p) + t) * k by apply: Rmult_le_pos; lra.
  have C : 9 * ((1 + 1 + 1 + 1) * u) * (9 / 2 + ((k * (11 / 2 + p) + t) * k + t)) <= 9 * ((1 + 1 + 1 + 1) * (1 / 1000000000000000)) * 12 by apply: Rmult_le_compat; lra.
  have E : k * p <= 1 * / 1000000000000 by apply: Rmult_le_compat; lra. have E0 : 0 <= k * p by apply: Rmult_le_pos; lra. have F : k * p * k <= / 1000000000000 * 1 by apply: Rmult_le_compat; lra.
  have G : d * d <= / 100000000000 * 1 by apply: Rmult_le_compat; lra. lra.
Qed.
End Num.

Definition one1 : 'M[R]_1 := const_mx R1.
Definition var1 : 'M[R]_1 := const_mx (Rdiv 9 2).
Definition x2 : 'cV[R]_1 := const_mx (IZR 2).
Lemma slip3 (a : 'I_1) : slip w3 y3 a = Rmult (Rmult (Rdiv 101 100) (Rmult (1 + 1 + 1 + 1) u64)) (Rplus (Rplus (Rplus 0 (Rabs (Rmult (Rdiv 1 2) 2))) (Rabs (Rmult (Rdiv 1 4) 5))) (Rabs (Rmult (Rdiv 1 4) (Ropp 1)))).
Proof. by rewrite /slip !big_ord_recr big_ord0 /= !mxE. Qed.
Lemma S3 : meas_cov w3 y3 one1 = const_mx (Rdiv 11 2).
Proof. apply/matrixP => i j. rewrite (ord1 i) (ord1 j) mxE cov3 !mxE. toR. lra. Qed.
Lemma T3 : cross_cov w3 y3 x2 y3 = const_mx (Rdiv 9 2).
Proof. apply/matrixP => i j. rewrite mxE (ord1 i) (ord1 j) mean3 !big_ord_recr big_ord0 /= !mxE /=. toR. lra. Qed.
Lemma size11 (A B : 'M[R]_1) : size_mul A B 0 0 = Rplus (Rmult (Rabs (A 0 0)) (Rabs (B 0 0))) tiny64.
Proof. exact: size1. Qed.
Lemma ukf_case (x1 : 'cV[R]_1) (P1 : 'M[R]_1) (z : 'cV[R]_1) : exists (xe xf : 'cV[R]_1) (Pe Pf : 'M[R]_1),
  filterUkfUpdate (DV x2) (DM var1) (DM y3) (DV w3) (DM y3) (DV z) (DM one1) (DV x1) (DM P1) = Ret (true, (DV xe, DM Pe)) /\
  filterUkfUpdate_f rnd53 (@dot_loop rnd53) (lu_mx rnd53 (msub_loop rnd53)) x2 var1 y3 w3 y3 z one1 = Ret (xf, Pf) /\
  Pe 0 0 = Rdiv 9 11 /\ Rle (Rabs (Rminus (Pf 0 0) (Rdiv 9 11))) (Rinv 1000000000).
Proof.
  have T0 := tiny_pos. have T1 := tiny_small. have U := u64_bounds. have SL := case_slip (slip3 0).
  have ephi : meas_err w3 y3 one1 0 0 = Rplus (Rmult (Rmult (Rdiv 101 100) (Rmult (1 + 1 + 1 + (1 + 1 + 1 + 1)) u64)) (Rplus (Rabs 1) (Rmult (sqrt (Rplus (Rdiv 9 2) (Rmult (slip w3 y3 0) (slip w3 y3 0)))) (sqrt (Rplus (Rdiv 9 2) (Rmult (slip w3 y3 0) (slip w3 y3 0))))))) (Rmult (slip w3 y3 0) (slip w3 y3 0)).
  { by rewrite /meas_err /spread cov3 [one1 _ _]mxE. }
  have [P0 P2] := num_phi SL ephi.
  have ecr : cross_err w3 y3 x2 y3 0 0 = Rplus (Rmult (Rmult (Rdiv 101 100) (Rmult (1 + 1 + 1 + (1 + 1 + 1 + 1)) u64)) (Rmult (sqrt (Rdiv 9 2)) (sqrt (Rplus (Rdiv 9 2) (Rmult (slip w3 y3 0) (slip w3 y3 0)))))) (Rmult (Rabs (Rminus 2 2)) (slip w3 y3 0)).
  { rewrite /cross_err /spread /spread_about cov3 mean3 [x2 _ _]mxE. rewrite (_ : \sum_i _ = Rdiv 9 2) //. rewrite !big_ord_recr big_ord0 /= !mxE /=. toR. lra. }
  have C0 := num_cross SL ecr.
  have KS : keeps (Rdiv 11 2) (meas_cov w3 y3 one1).
  { move=> x. rewrite S3 /sq !big_ord1 mxE big_ord1 mxE. right. toR. move: (x _ _) => a. ring. }
  have SM i j : Rle (Rabs (meas_cov w3 y3 one1 i j)) (Rdiv 11 2) by rewrite S3 mxE Rabs_right; lra.
  have Hphi i j : Rle (meas_err w3 y3 one1 i j) (Rinv 1000000000000) by rewrite (ord1 i) (ord1 j).
  have F : Rlt (Rmult 2 (Rmult (INR 1) (Rplus (Rmult (Rmult 7 (Rmult (INR 1 + 2) u64)) (Rmult (pow 2 1) (Rplus (Rdiv 11 2) (Rinv 1000000000000)))) (Rinv 1000000000000)))) (Rdiv 11 2).
  { rewrite /=. have := U. lra. }
  have SR : symmetric one1 by apply/matrixP => i j; rewrite !mxE.
  have [xe [Pe [xf [Pf [K [EU [EF [BK [_ BP]]]]]]]]] := @ukf_update_near rnd53 (@dot_loop rnd53) (msub_loop rnd53) 3 1 1 rnd53_rel (dot_loop_ok (rel_rnd rnd53_rel)) (msub_loop_ok _ rnd53_rel) ltac:(rewrite /=; lra) isT isT
    w3 y3 x2 x1 y3 one1 var1 P1 z (Rdiv 11 2) (Rdiv 11 2) (Rinv 1000000000000) w3_dist SR KS ltac:(lra) SM ltac:(lra) Hphi ltac:(lra) F.
  exists xe, xf, Pe, Pf. split=> //. split=> //. have US := keeps_unit KS ltac:(lra).
  have EK : cross_cov w3 y3 x2 y3 *m invmx (meas_cov w3 y3 one1) = const_mx (Rdiv 9 11).
  { rewrite -[RHS](mulmxK US). congr (_ *m _). rewrite T3 S3. apply/matrixP => i j. rewrite mxE [RHS]mxE big_ord1 !mxE. toR. lra. }
  have EP : Pe 0 0 = Rdiv 9 11.
  { have := @ukfUpdate_ok 1 1 x2 x1 var1 P1 y3 w3 y3 z one1. cbv zeta. rewrite wscat_cov wscat_cross -/(meas_cov w3 y3 one1) US EK EU => Q. have Q2 := f_equal (fun r : outcome (bool * (dvec * dmat)) => if r is Ret (_, (_, A)) then A else DM Pe) Q. rewrite (DM_inj Q2). rewrite S3 !mxE !big_ord1 !mxE big_ord1 !mxE. toR. lra. }
  split=> //. have RT : row_sum (cross_cov w3 y3 x2 y3) 0 = Rdiv 9 2 by rewrite /row_sum big_ord1 T3 mxE Rabs_right; lra.
  have BK0 := BK 0 0. have B := BP 0 0. rewrite EP RT big_ord1 in BK0 B. rewrite EK [const_mx _ _ _]mxE in BK0. set e := Rmult 2 _ in BK0 B.
  have E3 : Rle 0 e /\ Rle e (Rdiv 3 1000000000000) by rewrite /e /=; lra.
  have D := num_dK U (conj T0 T1) E3 C0. set d := Rplus _ _ in D.
  change (INR 3) with (Rplus (Rplus 1 1) 1) in BK0, B. rewrite -/d in BK0 B. rewrite !big_ord1 in B.
  have KB : Rle 0 (Rabs (K 0 0)) /\ Rle (Rabs (K 0 0)) 1.
  { split; first exact: Rabs_pos. have := Rabs_triang (Rminus (K 0 0) (Rdiv 9 11)) (Rdiv 9 11). rewrite (_ : Rplus (Rminus (K 0 0) (Rdiv 9 11)) (Rdiv 9 11) = K 0 0); last by ring. rewrite (Rabs_right (Rdiv 9 11)); lra. }
  rewrite [var1 _ _]mxE (Rabs_right (Rdiv 9 2)) in B; last lra. rewrite S3 [const_mx _ _ _]mxE (Rabs_right (Rdiv 11 2)) in B; last lra.
  have ms : meas_size w3 y3 one1 0 0 = Rplus (Rdiv 11 2) (meas_err w3 y3 one1 0 0) by rewrite mxE S3 mxE Rabs_right; lra.
  rewrite !size11 [K^T _ _]mxE ms in B. rewrite (Rabs_right (Rplus (Rdiv 11 2) _)) in B; last lra.
  rewrite (Rabs_right (Rplus (Rmult (Rabs (K 0 0)) _) tiny64)) in B. 2:{ apply: Rle_ge. apply: Rplus_le_le_0_compat; [apply: Rmult_le_pos; lra|lra]. }
  apply: Rle_trans B _. exact: (@num_var u64 tiny64 (meas_err w3 y3 one1 0 0) d (Rabs (K 0 0)) U (conj T0 T1) (conj P0 P2) D KB).
Qed.
