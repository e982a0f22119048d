(** The LDLT solver: exact arithmetic, and a line through three readings. *)
From Coq Require Import Reals Lra Psatz.
From mathcomp Require Import all_ssreflect all_fingroup all_algebra.
From Verif Require Import Base BaseMx ModelLdltFloat ModelLdltMx ModelFilterFloat ModelBlsFloat SpecFloatOps SpecKalman SpecBls SpecLdltFloat SpecFilterFloat SpecUpdateFloat SpecBlsFloat
  ProofMx ProofKalman ProofKalman2 ProofBls ProofFilterFloat ProofUpdateFloat ProofLongFloat ProofLdlt6 ProofLdlt7 ProofLdlt8 ProofBlsFloat2 ProofBlsFloat3 ProofBlsFloat4 ProofStrapdownFloat ProofDisturb2.
Set Implicit Arguments.
Unset Strict Implicit.
Unset Printing Implicit Defensive.
Import GRing.Theory.

Section Scal.
Local Open Scope R_scope.
Lemma line_scal u x q t a : 0 < u <= 1 / 9000000000000000 -> 1 / 2 <= t <= 2 -> sqrt t * Rabs (x - q) <= 4 * ((2 * (9 * ((2 + 2) * u)) + 6 * ((3 + 1) * u)) * (2 / (1 / 5))) * sqrt a -> 0 <= a <= 9 -> Rabs (x - q) <= 2 / 1000000000000.
Proof.
  move=> U T H A. have S3 : 7 / 10 <= sqrt t. { apply: Rsqr_incr_0_var; last exact: sqrt_pos. rewrite /Rsqr sqrt_sqrt; lra. }
  have S6 : sqrt a <= 3. { apply: Rsqr_incr_0_var; last lra. rewrite /Rsqr sqrt_sqrt; lra. }
  have B := Rabs_pos (x - q). have : 4 * ((2 * (9 * ((2 + 2) * u)) + 6 * ((3 + 1) * u)) * (2 / (1 / 5))) * sqrt a <= 4 * ((2 * (9 * ((2 + 2) * u)) + 6 * ((3 + 1) * u)) * (2 / (1 / 5))) * 3 by apply: Rmult_le_compat_l; lra.
  have : 7 / 10 * Rabs (x - q) <= sqrt t * Rabs (x - q) by apply: Rmult_le_compat_r. lra.
Qed.
Definition line_cost a b := (1 - a) * (1 - a) + ((2 - (a + b)) * (2 - (a + b)) + (2 - (a + 2 * b)) * (2 - (a + 2 * b))).
Lemma line_best a b : line_cost (7 / 6) (1 / 2) <= line_cost a b.
Proof. rewrite /line_cost. have := Rle_0_sqr (a - 7 / 6 + (b - 1 / 2)). have := Rle_0_sqr (b - 1 / 2). rewrite /Rsqr. lra. Qed.
Lemma line_apart a b : 1 / 5 * (3 * (a * a) + 5 * (b * b)) <= (a * 3 + b * 3) * a + (a * 3 + b * 5) * b.
Proof. have := Rle_0_sqr (a + 5 / 4 * b). have := Rle_0_sqr b. rewrite /Rsqr. lra. Qed.
Lemma two_nine a b : 18 * a + b = 2 * (9 * a) + b. Proof. ring. Qed.
Lemma one_two : 1 <= 2. Proof. lra. Qed.
End Scal.

Local Open Scope ring_scope.
Local Open Scope outcome_scope.

Lemma ldlt_mx_exact n (p : 'S_n) (A : 'M[R]_n) (b x : 'cV[R]_n) : ldlt_mx p id (fun c k u w => Rminus c (sum (fun j => Rmult (u j) (w j)) k)) A b = Ret x -> lower A *m x = b.
Proof.
  rewrite /ldlt_mx. case E: (ldlt_nat _ _ _ _ _) => [z| | | |] //= [<-].
  have X := ldlt_exact (rows_f p A) n (rows_sym p A) (rhs_rows p b) z E.
  apply/matrixP => i k. rewrite (ord1 k) mxE. have := X ((p^-1)%g i). rewrite sum_big /rhs_rows valK permKV => <-; last by apply/ltP; exact: ltn_ord.
  rewrite [RHS](reindex_inj (@perm_inj _ (p^-1)%g)) /=. apply: eq_bigr => j _. by rewrite [X in _ * X]mxE rows_at !permKV.
Qed.

(** Readings 1, 2, 2 at the times 0, 1, 2. *)
Definition line3 : 'M[R]_(3, 2) := \matrix_(i, j) if j == 0 then 1 else INR i.
Definition read3 : 'cV[R]_3 := \matrix_(i, _) if i == 0 then 1 else IZR 2.
Lemma line_normal : line3^T *m line3 = mx2 (IZR 3) (IZR 3) (IZR 3) (IZR 5).
Proof.
  apply/matrixP => i j. rewrite mxE !big_ord_recl big_ord0 !mxE /=. toR.
  case: i => [[|[|i]] I] //; case: j => [[|[|j]] J] //=; lra.
Qed.
Lemma read_sq : sq read3 = IZR 9.
Proof. rewrite /sq !big_ord_recl big_ord0 !mxE /=. toR. lra. Qed.
Lemma one2 : lift ord0 ord0 = 1 :> 'I_2.
Proof. exact: val_inj. Qed.
Lemma line_fit (z : 'cV[R]_2) : sq (read3 - line3 *m z) = line_cost (z 0 0) (z 1 0).
Proof.
  rewrite /sq !big_ord_recl big_ord0 !mxE !big_ord_recl !big_ord0 !mxE one2 /=. rewrite /line_cost. 
  change (z ord0 ord0) with (z 0 0). change (z 1 ord0) with (z 1 0). move: (z 0 0) (z 1 0) => a b. toR. lra.
Qed.
Lemma line_margin : apart (Rdiv 1 5) (line3^T *m line3).
Proof.
  move=> z. rewrite line_normal qf2 !big_ord_recl big_ord0 !mxE one2 /=. change (z ord0 0) with (z 0 0). move: (z 0 0) (z 1 0) => a b. toR. rewrite Rplus_0_r. exact: line_apart.
Qed.
Lemma line_case : exists (xf : 'cV[R]_2) Jf, unweighted_f rnd53 (@dot_loop rnd53) (ldlt_mx 1%g rnd53 (msub_loop rnd53)) read3 line3 = Ret (xf, Jf) /\
  Rle (Rabs (Rminus (xf 0 0) (Rdiv 7 6))) (Rdiv 2 1000000000000) /\ Rle (Rabs (Rminus (xf 1 0) (Rdiv 1 2))) (Rdiv 2 1000000000000).
Proof.
  have N3 : Rle (INR 3) 1000000 by rewrite /=; lra. have Hr := rel_rnd rnd53_rel. have Hd := dot_loop_ok Hr. have [V0 [V1 V2]] := vN_bounds N3. have [U0 U1] := u64_bounds.
  have T0 := tiny_pos. have T1 := tiny_small. have US := u64_sharp.
  have I2 : INR 2 = IZR 2 by rewrite INR_IZR_INZ. have I3 : INR 3 = IZR 3 by rewrite INR_IZR_INZ.
  have V : vN 3 = Rmult (Rplus 3 1) u64 by rewrite /vN I3.
  have D i : Rle tiny64 ((line3^T *m line3) i i).
  { rewrite line_normal mxE. case: i => [[|[|i]] I] //=; lra. }
  have Y : Rle tiny64 (sq read3) by rewrite read_sq; lra.
  have E : Rle (Rmult (Rmult 2 (INR 2)) (Rplus (Rmult 2 (Rmult 9 (Rmult (INR 2 + 2) u64))) (Rmult 6 (vN 3)))) (Rdiv 1 5) by rewrite V I2; rlra.
  have L0 : Rlt 0 (Rdiv 1 5) by lra. have L1 : Rle (Rdiv 1 5) 1 by lra.
  have [xf [Jf [EF SF]]] := @ldlt_unweighted rnd53 (@dot_loop rnd53) (msub_loop rnd53) 3 3 2 1%g rnd53_rel Hd (msub_loop_ok _ rnd53_rel) N3 isT isT line3 read3 (Rdiv 1 5) L0 L1 line_margin D Y E.
  exists xf, Jf. split=> //.
  have HS x' : ldlt_mx 1%g rnd53 (msub_loop rnd53) (normal_f (@dot_loop rnd53) line3) (rhs_f (@dot_loop rnd53) line3 read3) = Ret x' -> solved (Rmult 9 (Rmult (INR 2 + 2) u64)) (normal_f (@dot_loop rnd53) line3) (rhs_f (@dot_loop rnd53) line3 read3) x'.
  { move: EF. rewrite /unweighted_f => EF E'. move: EF. rewrite E' /= => -[E1 _]. by rewrite E1. }
  have [x [_ [BX [_ [C _]]]]] := @unweighted_bound rnd53 (@dot_loop rnd53) 3 3 2 _ Hr Hd N3 isT isT line3 read3 (Rdiv 1 5) (Rmult 9 (Rmult (INR 2 + 2) u64)) xf Jf L0 L1 (s_ge0 2) line_margin D Y HS EF E.
  have X := BX (\matrix_(i, _) if i == 0 then Rdiv 7 6 else Rdiv 1 2). rewrite !line_fit !mxE /= in X. have {}X := X (line_best _ _).
  have C0 := C 0. have C1 := C 1. move: C0 C1. rewrite -X line_normal V I2 /len read_sq !mxE /= => C0 C1.
  split.
  - apply: line_scal C0 _; try lra. 
  - apply: line_scal C1 _; lra.
Qed.
