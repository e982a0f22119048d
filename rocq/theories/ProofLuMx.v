(** The inversion of a matrix, and the measurement update with it. *)
From Coq Require Import Reals Arith Lra Psatz.
From mathcomp Require Import all_ssreflect all_algebra.
From Verif Require Import Base BaseMx ModelEigen ModelKalman ModelDate ModelLdltFloat ModelLuFloat ModelLuMx ModelFilterFloat ModelUpdateFloat SpecFloatOps SpecKalman SpecBls SpecLdltFloat SpecFilterFloat SpecUpdateFloat SpecLuFloat
  ProofMx ProofKalman ProofKalman2 ProofStrapdownFloat ProofFilterFloat1 ProofFilterFloat ProofUpdateFloat ProofLdlt ProofLdlt6 ProofLdlt7 ProofLu ProofLu2 ProofLu3.
From Verif Require ProofKalman5 ProofBls ProofBlsFloat2.
Set Implicit Arguments.
Unset Strict Implicit.
Unset Printing Implicit Defensive.
Import GRing.Theory.
Local Open Scope ring_scope.
Local Open Scope outcome_scope.

Section Mx.
Variables (n : nat) (A : 'M[R]_n) (s : R).
Hypothesis KA : keeps s A.
Hypothesis s0 : Rlt 0 s.
Lemma entries_at (B : 'M[R]_n) (i j : 'I_n) : entries B i j = B i j.
Proof. by rewrite /entries !valK. Qed.
Lemma entries_nat (B : 'M[R]_n) i j (I : (i < n)%N) (J : (j < n)%N) : entries B i j = B (Ordinal I) (Ordinal J).
Proof. by rewrite -(entries_at B (Ordinal I) (Ordinal J)). Qed.
Lemma entries_mul (B : 'M[R]_n) (x : nat -> R) (i : 'I_n) : sum (fun j => Rmult (entries B i j) (x j)) n = (B *m (\col_j x j)) i 0.
Proof. rewrite sum_big mxE. apply: eq_bigr => j _. by rewrite entries_at mxE. Qed.
Lemma entries_margin x : Rle (Rmult (Rmult s s) (sum (fun j => Rmult (x j) (x j)) n))
  (sum (fun i => Rmult (sum (fun j => Rmult (entries A i j) (x j)) n) (sum (fun j => Rmult (entries A i j) (x j)) n)) n).
Proof.
  have := KA (\col_j x j). rewrite /sq !sum_big. congr (Rle (Rmult _ _) _).
  - apply: eq_bigr => j _. by rewrite mxE.
  - apply: eq_bigr => i _. by rewrite !entries_mul.
Qed.
Lemma keeps_unit : A \in unitmx.
Proof.
  case U: (A \in unitmx) => //. have U' : A^T \notin unitmx by rewrite unitmx_tr U. have [v v0 vA] := nonunit_kernel U'.
  have E : A *m v^T = 0 by rewrite -[A]trmxK -trmx_mul vA trmx0. have := KA v^T. rewrite E.
  have Z : sq (0 : 'cV[R]_n) = R0 by rewrite /sq big1 // => i _; rewrite mxE mul0r. rewrite Z => L. exfalso. case/negP: v0. apply/eqP/matrixP => i j. rewrite (ord1 i) [RHS]mxE.
  have P : Rle (Rmult (v 0 j) (v 0 j)) (sq v^T).
  { rewrite /sq (bigD1 j) //= !mxE. have : Rle 0 (\sum_(i < n | i != j) v^T i 0 * v^T i 0) by elim/big_rec: _ => [|k y _ Y]; [exact: Rle_refl|apply: Rplus_le_le_0_compat => //; exact: Rle_0_sqr].
    move: (\sum_(_ | _) _) => t T. rewrite -{1}[Rmult _ _]Rplus_0_r. exact: Rplus_le_compat_l. }
  apply: Rsqr_0_uniq. have s2 : Rlt 0 (Rmult s s) by nra. have := Rle_0_sqr (v 0 j). rewrite /Rsqr in P *. move: (sq _) (Rmult (v 0 j) (v 0 j)) L P => q t L P T. nra.
Qed.
Lemma entries_inv i j : lt i n -> lt j n -> sum (fun m => Rmult (entries A i m) (entries (invmx A) m j)) n = if Nat.eqb i j then R1 else R0.
Proof.
  move=> /ltP I /ltP J. have E := mulmxV keeps_unit. have := f_equal (fun B : 'M_n => B (Ordinal I) (Ordinal J)) E. cbv beta. rewrite [LHS]mxE [RHS]mxE sum_big => Q.
  rewrite (_ : (if Nat.eqb i j then R1 else R0) = (Ordinal I == Ordinal J)%:R).
  - rewrite -Q. apply: eq_bigr => m _. by rewrite -[i]/(nat_of_ord (Ordinal I)) -[j]/(nat_of_ord (Ordinal J)) !entries_at.
  - rewrite -(inj_eq val_inj) /=. case: Nat.eqb_spec => [->|D]; first by rewrite eqxx. by have /eqP/negbTE -> := D.
Qed.

(** ** The inverse *)
Variables (r : R -> R) (msub : R -> nat -> (nat -> R) -> (nat -> R) -> R) (M : R).
Hypotheses (Hr : rel_ok r) (Hm : msub_ok msub) (Hn : Rle (INR n) 1000000) (AM : forall i j, Rle (Rabs (A i j)) M) (M0 : Rle 0 M).
Lemma entries_le i j : lt i n -> lt j n -> Rle (Rabs (entries A i j)) M.
Proof. move=> /ltP I /ltP J. rewrite (entries_nat A I J). exact: AM. Qed.
Let eps : R := Rmult (Rmult 7 (Rmult (INR n + 2) u64)) (Rmult (pow 2 n) M).
Lemma mx_residual : Rlt (Rmult (INR n) eps) s -> exists X, lu_mx r msub A = Ret X /\
  forall i j, Rle (Rabs (Rminus ((A *m X) i j) ((1%:M : 'M[R]_n) i j))) (Rmult eps (\sum_m Rabs (X m j))).
Proof.
  move=> F. have [x [X1 X2]] := @inverse_res r msub (entries A) n M s Hr Hm Hn entries_le M0 entries_margin F.
  exists (\matrix_(i, j) x i j). rewrite /lu_mx X1. split=> // i j. have := X2 i j (ltP (ltn_ord i)) (ltP (ltn_ord j)). rewrite !sum_big.
  rewrite (_ : (if Nat.eqb i j then R1 else R0) = (1%:M : 'M[R]_n) i j).
  2:{ rewrite mxE -(inj_eq val_inj) /=. case: Nat.eqb_spec => [->|D]; first by rewrite eqxx. by have /eqP/negbTE -> := D. }
  rewrite [(A *m _) i j]mxE (eq_bigr (fun m : 'I_n => A i m * (\matrix_(i, j) x i j) m j)); last by move=> m _; rewrite entries_at mxE.
  rewrite [X in Rle _ (Rmult _ X)](eq_bigr (fun m : 'I_n => Rabs ((\matrix_(i, j) x i j) m j))); last by move=> m _; rewrite mxE. exact.
Qed.
Lemma mx_dist : Rle (Rmult 2 (Rmult (INR n) eps)) s -> exists X, lu_mx r msub A = Ret X /\
  forall i j, Rle (Rabs (Rminus (X i j) (invmx A i j))) (Rdiv (Rmult 2 (Rmult (INR n) eps)) (Rmult s s)).
Proof.
  move=> F. have [x [X1 X2]] := @inverse_dist r msub (entries A) (entries (invmx A)) n M s Hr Hm Hn entries_le M0 entries_margin entries_inv s0 F.
  exists (\matrix_(i, j) x i j). rewrite /lu_mx X1. split=> // i j. have := X2 i j (ltP (ltn_ord i)) (ltP (ltn_ord j)). rewrite entries_at [(\matrix_(i, j) _) _ _]mxE. exact.
Qed.
Variables (Af : 'M[R]_n) (v : R).
Hypothesis Hv : Rle (Rmult (INR n + 1) u64) v /\ Rle v (Rdiv 2 1000000000).
Hypothesis NA : forall i j, Rle (Rabs (Rminus (Af i j) (A i j))) (Rmult (Rmult 9 v) M).
Lemma near_dist : let dl := Rmult (Rmult 24 v) (Rmult (pow 2 n) M) in Rle (Rmult 2 (Rmult (INR n) dl)) s -> exists X, lu_mx r msub Af = Ret X /\
  forall i j, Rle (Rabs (Rminus (X i j) (invmx A i j))) (Rdiv (Rmult 2 (Rmult (INR n) dl)) (Rmult s s)) /\ Rle (Rabs (invmx A i j)) (Rinv s).
Proof.
  move=> dl F. have NE i j : lt i n -> lt j n -> Rle (Rabs (Rminus (entries Af i j) (entries A i j))) (Rmult (Rmult 9 v) M).
  { move=> /ltP I /ltP J. rewrite !(entries_nat _ I J). exact: NA. }
  have [x [X1 X2]] := @inverse_dist_near r msub (entries A) (entries (invmx A)) n M s Hr Hm Hn entries_le M0 entries_margin entries_inv s0 (entries Af) v Hv NE F.
  exists (\matrix_(i, j) x i j). rewrite /lu_mx X1. split=> // i j. have := X2 i j (ltP (ltn_ord i)) (ltP (ltn_ord j)). rewrite entries_at [(\matrix_(i, j) _) _ _]mxE. exact.
Qed.
Lemma keeps_le (i : 'I_n) : Rle s (Rmult (INR n) M).
Proof.
  have := KA (\col_k (k == i)%:R). have -> : sq (\col_k (k == i)%:R : 'cV[R]_n) = R1.
  { rewrite /sq (bigD1 i) //= big1 ?addr0; last by move=> k /negbTE E; rewrite !mxE E mul0r. by rewrite !mxE eqxx mulr1. }
  have Q : Rle (sq (A *m (\col_k (k == i)%:R))) (Rmult (INR n) (Rmult M M)).
  { rewrite /sq (_ : Rmult (INR n) (Rmult M M) = \sum_(k < n) Rmult M M); last first.
    { elim: (n) => [|k IH]; [by rewrite big_ord0 Rmult_0_l|rewrite big_ord_recr /= -IH -/(INR k.+1) S_INR; toR; ring]. }
    apply: ProofFilterFloat.sum_le => k. have -> : (A *m (\col_k (k == i)%:R)) k 0 = A k i.
    { rewrite mxE (bigD1 i) //= big1 ?addr0; last by move=> l /negbTE E; rewrite !mxE E mulr0. by rewrite !mxE eqxx mulr1. }
    have := AM k i. move: (A k i) => a Ha. apply: Rle_trans (Rle_abs _) _. toR. rewrite Rabs_mult. apply: Rmult_le_compat => //; exact: Rabs_pos. }
  move=> L. have N1 : Rle 1 (INR n) by exact: (INR_ge1 i). move: Q L. move: (sq _) => q Q L. apply: Rsqr_incr_0_var; last by apply: Rmult_le_pos => //; lra. rewrite /Rsqr.
  have : Rle (Rmult (INR n) (Rmult M M)) (Rmult (INR n) (Rmult (INR n) (Rmult M M))). { have := Rmult_le_compat_r (Rmult (INR n) (Rmult M M)) 1 (INR n) ltac:(apply: Rmult_le_pos; [lra|exact: Rle_0_sqr]) N1. lra. }
  lra.
Qed.
End Mx.

(** The same for any error of the entries. *)
Lemma any_dist n (A Af : 'M[R]_n) s r msub M phi : keeps s A -> Rlt 0 s -> rel_ok r -> msub_ok msub -> Rle (INR n) 1000000 -> (forall i j, Rle (Rabs (A i j)) M) -> Rle 0 M -> Rle 0 phi ->
  (forall i j, Rle (Rabs (Rminus (Af i j) (A i j))) phi) ->
  let dl := Rplus (Rmult (Rmult 7 (Rmult (INR n + 2) u64)) (Rmult (pow 2 n) (Rplus M phi))) phi in Rlt (Rmult 2 (Rmult (INR n) dl)) s -> exists X, lu_mx r msub Af = Ret X /\
  forall i j, Rle (Rabs (Rminus (X i j) (invmx A i j))) (Rdiv (Rmult 2 (Rmult (INR n) dl)) (Rmult s s)) /\ Rle (Rabs (invmx A i j)) (Rinv s).
Proof.
  move=> KA s0 Hr Hm Hn AM M0 P0 NA dl F. have NE i j : lt i n -> lt j n -> Rle (Rabs (Rminus (entries Af i j) (entries A i j))) phi.
  { move=> /ltP I /ltP J. rewrite !(entries_nat _ I J). exact: NA. }
  have [x [X1 X2]] := @inverse_dist_phi r msub (entries A) (entries (invmx A)) (entries Af) n M s phi Hr Hm Hn (entries_le AM) M0 (entries_margin KA) (entries_inv KA s0) s0 P0 NE F.
  exists (\matrix_(i, j) x i j). rewrite /lu_mx X1. split=> // i j. have := X2 i j (ltP (ltn_ord i)) (ltP (ltn_ord j)). rewrite entries_at [(\matrix_(i, j) _) _ _]mxE. exact.
Qed.

(** ** The measurement update *)
Section Scal.
Local Open Scope R_scope.
Lemma q_big v p m Z s : 0 < v -> 2 <= p -> s <= m * Z -> 0 < s -> 48 * v <= 24 * v * (m * p * Z) / s.
Proof.
  move=> V P L S. apply: (Rmult_le_reg_r s) => //. rewrite (_ : 24 * v * (m * p * Z) / s * s = 24 * v * (m * p * Z)); last by field; lra.
  have A : 2 * s <= p * (m * Z) by apply: Rmult_le_compat; lra. have := Rmult_le_compat_l (24 * v) _ _ ltac:(lra) A. lra.
Qed.
Lemma gain_total v q s w t e1 e2 z : 0 < v -> 48 * v <= q -> 0 < s -> 0 <= w -> 0 < t -> z <= w * (2 / s) + t -> e1 <= 6 * v * z -> e2 <= w * (2 * q / s) -> e1 + e2 <= 5 / 2 * q * (w / s + t).
Proof.
  move=> V Q S W T Z1 E1 E2. have Y : 0 <= w / s by apply: Rmult_le_pos => //; left; exact: Rinv_0_lt_compat.
  have -> : 5 / 2 * q * (w / s + t) = 5 / 2 * q * (w / s) + 5 / 2 * q * t by ring.
  have Z2 : z <= 2 * (w / s) + t by apply: Rle_trans Z1 _; right; field; lra. have E3 : e2 <= 2 * q * (w / s) by apply: Rle_trans E2 _; right; field; lra.
  have A := Rmult_le_compat_l (6 * v) _ _ ltac:(lra) Z2. have B := Rmult_le_compat_r _ _ _ Y Q. have C := Rmult_le_compat_r t _ _ ltac:(lra) Q.
  have D := Rmult_le_pos v _ ltac:(lra) Y. have F := Rmult_le_pos v t ltac:(lra) ltac:(lra). move: (w / s) Y Z2 E3 A B D => y Y Z2 E3 A B D. lra.
Qed.
Lemma q_dist v m p Z s : 0 < s -> 2 * (m * (24 * v * (p * Z))) / (s * s) = 2 * (24 * v * (m * p * Z) / s) / s.
Proof. move=> S. field. lra. Qed.
Lemma q_half v m p Z s : 0 < s -> 2 * (24 * v * (m * p * Z) / s) <= 1 -> 2 * (m * (24 * v * (p * Z))) <= s.
Proof.
  move=> S H. have := Rmult_le_compat_r s _ _ ltac:(lra) H. rewrite (_ : 2 * (24 * v * (m * p * Z) / s) * s = 2 * (m * (24 * v * (p * Z)))); last by field; lra. lra.
Qed.
Lemma two_s q s x xs : 0 < s -> 2 * q <= 1 -> Rabs (x - xs) <= 2 * q / s -> Rabs xs <= / s -> Rabs x <= 2 / s.
Proof.
  move=> S Q A B. rewrite (_ : x = (x - xs) + xs); last by ring. apply: Rle_trans (Rabs_triang _ _) _. have I : 0 < / s by exact: Rinv_0_lt_compat.
  have := Rmult_le_compat_r (/ s) _ _ ltac:(lra) Q. rewrite /Rdiv in A *. lra.
Qed.
End Scal.

Lemma big_scar n (f : 'I_n -> R) c : Rmult (\sum_k f k) c = \sum_k Rmult (f k) c.
Proof. exact: (mulr_suml _ _ f c). Qed.
Section Update.
Variables (r : R -> R) (dot : dot_fun) (msub : R -> nat -> (nat -> R) -> (nat -> R) -> R) (N n m : nat).
Hypotheses (Hr : rel_ok r) (Hd : dot_ok dot) (Hs : msub_ok msub) (HN : Rle (INR N) 1000000) (Hn : (n <= N)%N) (Hm : (m <= N)%N).
Variables (P : 'M[R]_n) (H : 'M[R]_(m, n)) (Rk : 'M[R]_m) (s Z : R).
Let S : 'M[R]_m := H *m P *m H^T + Rk.
Let v : R := Rmult (INR N + 1) u64.
Let q : R := Rdiv (Rmult (Rmult 24 v) (Rmult (Rmult (INR m) (pow 2 m)) Z)) s.
Hypotheses (KS : keeps s S) (s0 : Rlt 0 s) (HZ : forall i j, Rle (innov_size P H Rk i j) Z) (Hq : Rle (Rmult 2 q) 1).
Let dK i : R := Rmult (Rmult (Rdiv 5 2) q) (Rplus (Rdiv (row_size P H i) s) tiny64).

Lemma mx_gain : exists K, gain_f r dot (lu_mx r msub) P H Rk = Ret K /\ forall i l, Rle (Rabs (Rminus (K i l) ((P *m H^T *m invmx S) i l))) (dK i).
Proof.
  have Hr' := rel_rnd Hr. have [V0 [V1 V2]] := vN_bounds HN. rewrite -/v in V0 V1 V2. have T0 := tiny_pos.
  have NI := near_innov Hr' Hd HN Hn P H Rk. rewrite /near -/(vN N) -/S in NI.
  case: (posnP m) => [m0|mp].
  { have no (i : 'I_m) : False by case: i => k; rewrite m0.
    have Hv : Rle (Rmult (INR m + 1) u64) v /\ Rle v (Rdiv 2 1000000000).
    { split=> //. rewrite /v. apply: Rmult_le_compat_r; first by have := u64_bounds; lra. apply: Rplus_le_compat_r. apply: le_INR. exact/leP. }
    have [X [EX _]] := @near_dist m S s KS s0 r msub 0 Hr Hs ltac:(rewrite m0; simpl; lra) ltac:(by move=> i; have := no i) (Rle_refl _) (map_mx r (mul_f dot (mul_f dot H P) H^T + Rk)) v Hv ltac:(by move=> i; have := no i)
       ltac:(rewrite m0 /= !Rmult_0_l Rmult_0_r; lra).
    eexists. split; first by rewrite /gain_f EX. move=> i l. by have := no l. }
  have p2 : Rle 2 (pow 2 m) by case: (m) mp => // k _ /=; have := pow_R1_Rle 2 k ltac:(lra); lra.
  have i0 : 'I_m by exact: Ordinal mp.
  have SZ i j : Rle (Rabs (S i j)) Z by apply: Rle_trans (HZ i j); exact: (proj2 (NI i j)).
  have Z0 : Rle 0 Z by apply: Rle_trans (SZ i0 i0); exact: Rabs_pos.
  have Hv : Rle (Rmult (INR m + 1) u64) v /\ Rle v (Rdiv 2 1000000000).
  { split=> //. rewrite /v. apply: Rmult_le_compat_r; first by have := u64_bounds; lra. apply: Rplus_le_compat_r. apply: le_INR. exact/leP. }
  have HmR : Rle (INR m) 1000000 by apply: Rle_trans HN; apply: le_INR; exact/leP.
  have NA i j : Rle (Rabs (Rminus (map_mx r (mul_f dot (mul_f dot H P) H^T + Rk) i j) (S i j))) (Rmult (Rmult 9 v) Z).
  { apply: Rle_trans (proj1 (NI i j)) _. apply: Rmult_le_compat_l; [lra|exact: HZ]. }
  have [X [EX BX]] := @near_dist m S s KS s0 r msub Z Hr Hs HmR SZ Z0 _ v Hv NA (q_half s0 Hq).
  have qd : Rdiv (Rmult 2 (Rmult (INR m) (Rmult (Rmult 24 v) (Rmult (pow 2 m) Z)))) (Rmult s s) = Rdiv (Rmult 2 q) s by exact: q_dist.
  rewrite qd in BX.
  exists (mul_f dot (mul_f dot P H^T) X). split; first by rewrite /gain_f EX. move=> i l.
  have NG := near_gain Hd HN Hn Hm P H X i l. rewrite -/(vN N) in NG. have [NG1 _] := NG.
  set w := row_size P H i. have w0 : Rle 0 w. { rewrite /w /row_size. apply: sum_ge0 => k. have := size_mul_tiny P H^T i k. lra. }
  have Zs : Rle (size_mul (size_mul P H^T) X i l) (Rplus (Rmult w (Rdiv 2 s)) tiny64).
  { rewrite {1}/size_mul [((_ + _) : 'M_(_, _)) i l]mxE [const_mx _ _ _]mxE. apply: Rplus_le_compat_r. rewrite mxE /w /row_size. rewrite big_scar. apply: ProofFilterFloat.sum_le => k.
    rewrite [map_mx _ _ _ _]mxE [map_mx _ X _ _]mxE. toR. rewrite (Rabs_right (size_mul _ _ _ _)); last by have := size_mul_tiny P H^T i k; lra.
    apply: Rmult_le_compat_l; first by have := size_mul_tiny P H^T i k; lra. have [B1 B2] := BX k l. exact: (two_s s0 Hq B1 B2). }
  have E2 : Rle (Rabs (Rminus ((P *m H^T *m X) i l) ((P *m H^T *m invmx S) i l))) (Rmult w (Rdiv (Rmult 2 q) s)).
  { have -> : Rminus ((P *m H^T *m X) i l) ((P *m H^T *m invmx S) i l) = (P *m H^T *m (X - invmx S)) i l by rewrite mulmxBr [RHS]mxE [in RHS](mxE oppmx_key).
    rewrite mxE. apply: Rle_trans (ProofFilterFloat.sum_abs _) _. rewrite /w /row_size big_scar. apply: ProofFilterFloat.sum_le => k. toR. rewrite Rabs_mult.
    apply: Rmult_le_compat; try exact: Rabs_pos.
    - have A := @near_mul dot Hd N HN n n m 0 0 _ _ _ _ _ _ Hn ltac:(lra) ltac:(lra) ltac:(lra) ltac:(lra) (@near_refl N _ _ P) (@near_refl N _ _ H^T).
      rewrite size_mul_abs size_mul_abs' in A. exact: (proj2 (A i k)).
    - have [B1 _] := BX k l. by rewrite [(X - _) _ _]mxE [(- _ : 'M_(_, _)) _ _]mxE. }
  have Q := q_big V0 p2 (keeps_le KS SZ Z0 i0) s0. rewrite -/q in Q.
  apply: Rle_trans (gain_total V0 Q s0 w0 T0 Zs NG1 E2). set a := mul_f _ _ _ _ _. set b := (_ *m _ *m X) i l. set c := (_ *m invmx S) i l.
  rewrite (_ : Rminus a c = Rplus (Rminus a b) (Rminus b c)); last by ring. exact: Rabs_triang.
Qed.
End Update.
Section Update2.
Variables (r : R -> R) (dot : dot_fun) (msub : R -> nat -> (nat -> R) -> (nat -> R) -> R) (N n m : nat).
Hypotheses (Hr : rel_ok r) (Hd : dot_ok dot) (Hs : msub_ok msub) (HN : Rle (INR N) 1000000) (Hn : (n <= N)%N) (Hm : (m <= N)%N).
Variables (P : 'M[R]_n) (H : 'M[R]_(m, n)) (Rk : 'M[R]_m) (s Z : R).
Let S : 'M[R]_m := H *m P *m H^T + Rk.
Let v : R := Rmult (INR N + 1) u64.
Let q : R := Rdiv (Rmult (Rmult 24 v) (Rmult (Rmult (INR m) (pow 2 m)) Z)) s.
Hypotheses (KS : keeps s S) (s0 : Rlt 0 s) (HZ : forall i j, Rle (innov_size P H Rk i j) Z) (Hq : Rle (Rmult 2 q) 1).
Let dK i : R := Rmult (Rmult (Rdiv 5 2) q) (Rplus (Rdiv (row_size P H i) s) tiny64).
Lemma abs_step (a b e t u : R) : Rle (Rabs (Rminus a (Rplus b e))) t -> Rle (Rabs e) u -> Rle (Rabs (Rminus a b)) (Rplus t u).
Proof. move=> A B. rewrite (_ : Rminus a b = Rplus (Rminus a (Rplus b e)) e); last by ring. apply: Rle_trans (Rabs_triang _ _) _. exact: Rplus_le_compat. Qed.
Lemma mx_update (x x1 : 'cV[R]_n) (z : 'cV[R]_m) (P1 : 'M[R]_n) : symmetric P -> symmetric Rk ->
  exists (xe : 'cV[R]_n) (Pe : 'M[R]_n) (xf : 'cV[R]_n) (Pf : 'M[R]_n) (K : 'M[R]_(n, m)), filterUpdate (DV x) (DM P) (DV z) (DM H) (DM Rk) (DV x1) (DM P1) = Ret (true, (DV xe, DM Pe)) /\
  filterUpdate_f r dot (lu_mx r msub) x P z H Rk = Ret (xf, Pf) /\ gain_f r dot (lu_mx r msub) P H Rk = Ret K /\
  (forall i l, Rle (Rabs (Rminus (K i l) ((P *m H^T *m invmx S) i l))) (dK i)) /\
  (forall i, Rle (Rabs (Rminus (xf i ord0) (xe i ord0))) (Rplus (Rmult (Rmult 12 v) (state_size H K x z i ord0)) (Rmult (dK i) (\sum_l Rabs ((z - H *m x)%R l ord0))))) /\
  (forall i j, Rle (Rabs (Rminus (Pf i j) (Pe i j)))
    (Rplus (Rmult (Rmult 21 v) (update_size P H Rk K i j)) (Rmult (Rmult (dK i) (dK j)) (\sum_l \sum_k Rabs (S l k))))).
Proof.
  move=> SP SR. have Hr' := rel_rnd Hr. have [K [EK BK]] := mx_gain Hr Hd Hs HN Hn Hm KS s0 HZ Hq. rewrite -/v -/q in BK.
  have US := keeps_unit KS s0. have EU := update_ok x x1 z P P1 H Rk. rewrite -/S US in EU.
  have [xf [Pf EF]] : exists xf Pf, filterUpdate_f r dot (lu_mx r msub) x P z H Rk = Ret (xf, Pf) by rewrite /filterUpdate_f EK /=; eexists; eexists.
  have [K1 [EK1 [BX _]]] := update_own_gain Hr' Hd HN Hn Hm EF. have [K2 [EK2 BP]] := update_second_order Hr' Hd HN Hn Hm SP SR EU EF.
  have E1 : K1 = K by congruence. have E2 : K2 = K by congruence. subst K1 K2.
  eexists; eexists; exists xf, Pf, K. split; first exact: EU. do 3!split=> //. split.
  - move=> i. have := BX i. rewrite -/v. have -> : x + K *m (z - H *m x) = x + gain P H Rk *m (z - H *m x) + (K - gain P H Rk) *m (z - H *m x) by rewrite mulmxBl; move: (z - _) (gain P H Rk) => w g; rewrite -addrA; congr (x + _); rewrite [RHS]addrC subrK.
    rewrite [((_ + _ *m _ + _) : 'cV_n) i ord0]mxE => A. apply: (abs_step A). rewrite mxE. apply: Rle_trans (ProofFilterFloat.sum_abs _) _. rewrite [Rmult _ (\sum__ _)]Rmult_comm big_scar. apply: ProofFilterFloat.sum_le => l. toR. rewrite Rabs_mult Rmult_comm. apply: Rmult_le_compat_l; first exact: Rabs_pos.
    rewrite [(K - _) _ _]mxE [(- _ : 'M_(_, _)) _ _]mxE. exact: BK.
  - move=> i j. have := BP i j. cbv zeta. rewrite -/S -/v. set D := K - _. rewrite [(_ + _ : 'M_n) i j]mxE => A. apply: (abs_step A).
    have Di k l : Rle (Rabs (D k l)) (dK k) by rewrite /D mxE [(- _ : 'M_(_, _)) _ _]mxE; exact: BK.
    have d0 (l0 : 'I_m) k : Rle 0 (dK k) by apply: Rle_trans (Di k l0); exact: Rabs_pos.
    rewrite mxE. apply: Rle_trans (ProofFilterFloat.sum_abs _) _. rewrite [Rmult _ (\sum__ _)]Rmult_comm exchange_big big_scar. apply: ProofFilterFloat.sum_le => k. rewrite [D^T _ _]mxE [(D *m S) _ _]mxE. toR. rewrite Rabs_mult.
    rewrite (_ : Rmult (\sum_i0 Rabs (S i0 k)) (Rmult (dK i) (dK j)) = Rmult (Rmult (\sum_i0 Rabs (S i0 k)) (dK i)) (dK j)); last by ring.
    apply: Rmult_le_compat; try exact: Rabs_pos; last exact: Di. apply: Rle_trans (ProofFilterFloat.sum_abs _) _. rewrite big_scar. apply: ProofFilterFloat.sum_le => l. toR. rewrite Rabs_mult Rmult_comm. apply: Rmult_le_compat_l; [exact: Rabs_pos|exact: Di].
Qed.
End Update2.

(** Enough noise in every measurement keeps the innovation matrix away from
    singular ones. *)
Lemma cs_scal (s t a b : R) : Rle 0 s -> Rle 0 a -> Rle 0 b -> Rle (Rmult s a) t -> Rle (Rmult t t) (Rmult a b) -> Rle (Rmult (Rmult s s) a) b.
Proof.
  move=> S A B H C. case: (Rle_lt_or_eq_dec _ _ A) => [A1|<-]; last by rewrite Rmult_0_r. apply: (Rmult_le_reg_l a) => //. apply: Rle_trans C.
  have X : Rle 0 (Rmult s a) by exact: Rmult_le_pos. have := Rmult_le_compat _ _ _ _ X X H H. lra.
Qed.
Lemma keeps_noise n m (P : 'M[R]_n) (H : 'M[R]_(m, n)) (Rk : 'M[R]_m) s : Rle 0 s -> psd P -> (forall y : 'cV[R]_m, Rle (Rmult s (sq y)) (qf Rk y)) -> keeps s (H *m P *m H^T + Rk).
Proof.
  move=> S0 [_ PP] HR y. set S := _ + Rk. have Q : Rle (Rmult s (sq y)) (qf S y).
  { rewrite /S qfD qf_congr. have := PP (H^T *m y). have := HR y. toR. move: (qf P _) (qf Rk y) => a b. lra. }
  apply: (@cs_scal s (qf S y) (sq y) (sq (S *m y))) => //; try exact: ProofBlsFloat2.sq_ge0.
  have I1 : psd (1%:M : 'M[R]_m) by split; [rewrite /symmetric trmx1|exact: qf_1_ge0].
  have := ProofKalman5.cauchy y (S *m y) I1. by rewrite !ProofBls.sq_qf mulmx1 mulmxA [Rmult (sq y) _]Rmult_comm.
Qed.
