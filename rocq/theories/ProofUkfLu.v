(** The unscented update in rounded arithmetic. *)
From Coq Require Import Reals Lra Psatz.
From mathcomp Require Import all_ssreflect all_algebra.
From Verif Require Import Base BaseMx ModelEigen ModelKalman ModelDate ModelLdltFloat ModelLuFloat ModelLuMx ModelFilterFloat ModelUkfFloat SpecFloatOps SpecKalman SpecBls SpecFilterFloat SpecLdltFloat SpecUpdateFloat SpecLuFloat SpecUkfFloat SpecUkfUpdate
  ProofMx ProofKalman ProofKalman4 ProofFilterFloat ProofUpdateFloat ProofStrapdownFloat ProofLdlt7 ProofLuMx ProofUkfFloat ProofUkfFloat2 ProofUkfCross.
Set Implicit Arguments.
Unset Strict Implicit.
Unset Printing Implicit Defensive.
Import GRing.Theory.
Local Open Scope ring_scope.
Local Open Scope outcome_scope.

Section U.
Variables (r : R -> R) (dot : dot_fun) (msub : R -> nat -> (nat -> R) -> (nat -> R) -> R) (N n m k : nat).
Hypotheses (Hr : rel_ok r) (Hd : dot_ok dot) (Hs : msub_ok msub) (HN : Rle (INR N) 1000000) (Hn : (n <= N)%N) (Hm : (m <= N)%N) (Hk : Rle (INR k) 1000000).
Variables (W : 'cV[R]_k) (Y : 'M[R]_(n, k)) (x : 'cV[R]_n) (Z : 'M[R]_(m, k)) (Rk : 'M[R]_m) (P : 'M[R]_n) (z : 'cV[R]_m).
Hypothesis D : distribution W.
Let zh : 'cV[R]_m := SpecKalman.mean (weights W) (points Z).
Let S : 'M[R]_m := meas_cov W Z Rk.
Let T : 'M[R]_(n, m) := cross_cov W Y x Z.
Let zf := mean_f r W Z.
Let Sf := scatter_f r Rk W Z zf Z zf.
Let Tf := scatter_f r 0 W Y x Z zf.

Lemma zf_close b : Rle (Rabs (Rminus (zf b 0) (zh b 0))) (slip W Z b).
Proof. exact: mean_close. Qed.
Lemma Sf_close a b : Rle (Rabs (Rminus (Sf a b) (S a b))) (meas_err W Z Rk a b).
Proof. have := dist_weights Hr Hk Z Rk a b D. rewrite /S /meas_cov [(_ + _ : 'M_m) a b]mxE. exact. Qed.
Lemma Tf_close a b : Rle (Rabs (Rminus (Tf a b) (T a b))) (cross_err W Y x Z a b).
Proof.
  case: D => D0 D1. have W1 : wt (weights W) (enum 'I_k) = 1 by rewrite /wt lsum_enum.
  have := @cross_dist _ r Hr (weights W) (enum 'I_k) (short_enum Hk) D0 W1 (x a 0) (fun i => Y a i) (fun i => Z b i). cbv zeta.
  rewrite -cov_sc -slip_me -mean_mn units_G -meanf_mn -/zf. rewrite /Tf scatf_sc [(0 : 'M[R]_(n, m)) a b]mxE -/zf. rewrite /sc !lsum_enum /T [cross_cov _ _ _ _ _ _]mxE -/zh -mean_mn. exact.
Qed.

(** ** The gain *)
Variables (s M phi : R).
Hypotheses (KS : keeps s S) (s0 : Rlt 0 s) (SM : forall i j, Rle (Rabs (S i j)) M) (M0 : Rle 0 M) (Hphi : forall i j, Rle (meas_err W Z Rk i j) phi) (phi0 : Rle 0 phi).
Let v : R := Rmult (INR N + 1) u64.
Let e : R := Rmult 2 (Rmult (INR m) (Rplus (Rmult (Rmult 7 (Rmult (INR m + 2) u64)) (Rmult (pow 2 m) (Rplus M phi))) phi)).
Hypothesis es : Rlt e s.
Let tE i : R := \sum_l cross_err W Y x Z i l.
Let tS i : R := row_sum T i.
Let dK i : R := Rplus (Rplus (Rmult (Rmult 3 v) (Rplus (Rmult (Rdiv 2 s) (Rplus (tS i) (tE i))) tiny64)) (Rmult (Rdiv 2 s) (tE i))) (Rmult (Rdiv e (Rmult s s)) (tS i)).

Lemma ukf_gain : exists Si, lu_mx r msub Sf = Ret Si /\ forall i l, Rle (Rabs (Rminus (mul_f dot Tf Si i l) ((T *m invmx S) i l))) (dK i).
Proof.
  have HmR : Rle (INR m) 1000000 by apply: Rle_trans HN; apply: le_INR; exact/leP.
  have NA i j : Rle (Rabs (Rminus (Sf i j) (S i j))) phi by apply: Rle_trans (Sf_close i j) _; exact: Hphi.
  have [X [EX BX]] := any_dist KS s0 Hr Hs HmR SM M0 phi0 NA es. rewrite -/e in BX. exists X. split=> // i l.
  have X2 k' : Rle (Rabs (X k' l)) (Rdiv 2 s). { have [B1 B2] := BX k' l. exact: (@half_inv _ _ _ _ s0 es B1 B2). }
  have [V0 [V1 V2]] := vN_bounds HN. rewrite -/v in V0 V1 V2. have s2 : Rle 0 (Rdiv 2 s) by apply: Rmult_le_pos; [lra|left; exact: Rinv_0_lt_compat].
  have TT k' : Rle (Rabs (Tf i k')) (Rplus (Rabs (T i k')) (cross_err W Y x Z i k')).
  { have := Tf_close i k'. have := Rabs_triang (T i k') (Rminus (Tf i k') (T i k')). rewrite (_ : Rplus (T i k') (Rminus (Tf i k') (T i k')) = Tf i k'); last by ring. lra. }
  have Z1 : Rle (size_mul Tf X i l) (Rplus (Rmult (Rdiv 2 s) (Rplus (tS i) (tE i))) tiny64).
  { rewrite /size_mul [((_ + _) : 'M_(_, _)) i l]mxE [const_mx _ _ _]mxE. apply: Rplus_le_compat_r. rewrite mxE Rmult_comm /tS /tE /row_sum.
    rewrite (_ : Rplus (\sum_l0 Rabs (T i l0)) (\sum_l0 cross_err W Y x Z i l0) = \sum_l0 Rplus (Rabs (T i l0)) (cross_err W Y x Z i l0)); last by apply: esym; exact: big_split.
    rewrite big_scar. apply: ProofFilterFloat.sum_le => k'. rewrite [map_mx _ _ _ _]mxE [map_mx _ X _ _]mxE. toR. apply: Rmult_le_compat; try exact: Rabs_pos; [exact: TT|exact: X2]. }
  have [G1 _] := @near_mul dot Hd N HN n m m 0 0 _ _ _ _ _ _ Hm ltac:(lra) ltac:(lra) ltac:(lra) ltac:(lra) (@near_refl N _ _ Tf) (@near_refl N _ _ X) i l.
  rewrite size_mul_abs size_mul_abs' in G1.
  have E1 : Rle (Rabs (((Tf - T) *m X) i l)) (Rmult (Rdiv 2 s) (tE i)).
  { rewrite mxE. apply: Rle_trans (ProofFilterFloat.sum_abs _) _. rewrite Rmult_comm /tE big_scar. apply: ProofFilterFloat.sum_le => k'. toR. rewrite Rabs_mult.
    apply: Rmult_le_compat; try exact: Rabs_pos; last exact: X2. rewrite [(Tf - _) _ _]mxE [(- _ : 'M_(_, _)) _ _]mxE. exact: Tf_close. }
  have E2 : Rle (Rabs ((T *m (X - invmx S)) i l)) (Rmult (Rdiv e (Rmult s s)) (tS i)).
  { rewrite mxE. apply: Rle_trans (ProofFilterFloat.sum_abs _) _. rewrite Rmult_comm /tS /row_sum big_scar. apply: ProofFilterFloat.sum_le => k'. toR. rewrite Rabs_mult.
    apply: Rmult_le_compat_l; first exact: Rabs_pos. have [B1 _] := BX k' l. by rewrite [(X - _) _ _]mxE [(- _ : 'M_(_, _)) _ _]mxE. }
  have ET : Tf *m X = T *m invmx S + ((Tf - T) *m X + T *m (X - invmx S)).
  { rewrite mulmxBl mulmxBr. move: (Tf *m X) (T *m X) (T *m invmx S) => a b c. by rewrite [X in c + X]addrA subrK addrC subrK. }
  rewrite ET in G1. rewrite [((_ + (_ + _)) : 'M_(_, _)) i l]mxE in G1. rewrite (_ : dK i = Rplus (Rmult (Rmult 3 v) (Rplus (Rmult (Rdiv 2 s) (Rplus (tS i) (tE i))) tiny64)) (Rplus (Rmult (Rdiv 2 s) (tE i)) (Rmult (Rdiv e (Rmult s s)) (tS i)))); last by rewrite /dK; exact: Rplus_assoc.
  have G2 : Rle (Rabs (((Tf - T) *m X + T *m (X - invmx S))%R i l)) (Rplus (Rmult (Rdiv 2 s) (tE i)) (Rmult (Rdiv e (Rmult s s)) (tS i))).
  { rewrite [((_ + _) : 'M_(_, _)) i l]mxE. apply: Rle_trans (Rabs_triang _ _) _. exact: Rplus_le_compat. }
  apply: (abs_step _ G2). apply: Rle_trans G1 _. rewrite -[vN N]/v (_ : Rmult (Rplus (Rplus 0 0) 3) v = Rmult 3 v); last by ring. apply: Rmult_le_compat_l => //. rewrite /v in V0 *. move: V0. rewrite /vN. lra.
Qed.

(** ** The state and the covariance *)
Let K1 : 'M[R]_(n, m) := T *m invmx S.
Lemma near_own q (X : 'cV[R]_q) (B : 'cV[R]_q) : (forall i, Rle (Rabs (X i 0)) (B i 0)) -> @ProofUpdateFloat.near N _ _ 1 (map_mx r X) X B.
Proof.
  have [V0 [V1 V2]] := vN_bounds HN. have [U0 _] := u64_bounds. move=> H i j. rewrite (ord1 j) mxE. split; last exact: H. rewrite Rmult_1_l.
  have := Hr (X i 0). have := H i. have := Rabs_pos (X i 0). move: (Rabs (X i 0)) (B i 0) (vN N) V2 => a b w V2 A0 A1 A2. apply: Rle_trans A2 _. apply: Rmult_le_compat; lra.
Qed.
Lemma near_bound p q (X B : 'M[R]_(p, q)) : (forall i j, Rle (Rabs (X i j)) (B i j)) -> @ProofUpdateFloat.near N _ _ 0 X X B.
Proof. move=> H i j. rewrite Rminus_eq_0 Rabs_R0 !Rmult_0_l. split; [exact: Rle_refl|exact: H]. Qed.
Lemma resid_le i : Rle (Rabs ((z - zf)%R i 0)) (resid_size W Z z i 0).
Proof.
  rewrite /resid_size [(\col__ _) _ _]mxE [(z - _) _ _]mxE [(- _ : 'M_(_, _)) _ _]mxE. have := zf_close i. rewrite -/zh. move: (zf i 0) (zh i 0) (z i 0) => a b c. toR. move=> A.
  rewrite (_ : Rplus c (Ropp a) = Rplus (Rminus c b) (Ropp (Rminus a b))); last by ring. apply: Rle_trans (Rabs_triang _ _) _. rewrite Rabs_Ropp. exact: Rplus_le_compat_l.
Qed.
Lemma Sf_le i j : Rle (Rabs (Sf i j)) (meas_size W Z Rk i j).
Proof.
  rewrite /meas_size [(\matrix_(_, _) _) _ _]mxE -/S. have := Sf_close i j. move: (Sf i j) (S i j) => a b A. rewrite (_ : a = Rplus b (Rminus a b)); last by ring.
  apply: Rle_trans (Rabs_triang _ _) _. exact: Rplus_le_compat_l.
Qed.
Lemma mul_le p q o (A : 'M[R]_(p, q)) (B : 'M[R]_(q, o)) (a : 'I_p -> 'I_q -> R) (b : 'I_q -> 'I_o -> R) i j : (forall i l, Rle (Rabs (A i l)) (a i l)) -> (forall l j, Rle (Rabs (B l j)) (b l j)) ->
  Rle (Rabs ((A *m B) i j)) (\sum_l Rmult (a i l) (b l j)).
Proof.
  move=> HA HB. rewrite mxE. apply: Rle_trans (ProofFilterFloat.sum_abs _) _. apply: ProofFilterFloat.sum_le => l. toR. rewrite Rabs_mult. apply: Rmult_le_compat; try exact: Rabs_pos; [exact: HA|exact: HB].
Qed.
Lemma state_split (V : zmodType) (a b c d f : V) : a - b = d - f + (c - b + (a - c - (d - f))).
Proof. move: (d - f) => w. by rewrite [c - b + _]addrA [w + _]addrC subrK [RHS]addrC addrA subrK. Qed.
Lemma state_near (K : 'M[R]_(n, m)) : (forall i l, Rle (Rabs (Rminus (K i l) (K1 i l))) (dK i)) -> forall i,
  Rle (Rabs (Rminus (map_mx r (x + mul_f dot K (map_mx r (z - zf))) i 0) ((x + K1 *m (z - zh))%R i 0)))
      (Rplus (Rmult (Rmult 7 v) (Rplus (Rabs (x i 0)) (size_mul K (resid_size W Z z) i 0)))
             (Rplus (\sum_l Rmult (Rabs (K i l)) (slip W Z l)) (Rmult (dK i) (\sum_l Rabs ((z - zh)%R l 0))))).
Proof.
  move=> HK i. have Hr' := rel_rnd Hr. have N1 := near_own resid_le.
  have N2 := @near_mul dot Hd N HN n m 1 0 1 _ _ _ _ _ _ Hm ltac:(lra) ltac:(lra) ltac:(lra) ltac:(lra) (@near_refl N _ _ K) N1. rewrite size_mul_abs in N2.
  have N3 : @ProofUpdateFloat.near N _ _ 4 (mul_f dot K (map_mx r (z - zf))) (K *m (z - zf)) (size_mul K (resid_size W Z z)) by apply: (near_le HN _ N2); rlra.
  have N0 : @ProofUpdateFloat.near N _ _ 4 x x (map_mx Rabs x) by apply: (near_le HN _ (@near_refl N _ _ x)); rlra.
  have [G1 _] := near_add (k := IZR 4) Hr' HN ltac:(lra) ltac:(lra) (or_intror (fun i j => size_mul_tiny K (resid_size W Z z) i j)) N0 N3 i 0.
  have G2 : Rle (Rabs ((K *m (zh - zf) + (K - K1) *m (z - zh))%R i 0)) (Rplus (\sum_l Rmult (Rabs (K i l)) (slip W Z l)) (Rmult (dK i) (\sum_l Rabs ((z - zh)%R l 0)))).
  { rewrite [((_ + _) : 'M_(_, _)) i 0]mxE. apply: Rle_trans (Rabs_triang _ _) _. apply: Rplus_le_compat.
    - apply: (mul_le i 0 (a := fun i l => Rabs (K i l)) (b := fun l _ => slip W Z l)) => [i0 l|l j]; first exact: Rle_refl. rewrite (ord1 j) [(zh - _) _ _]mxE [(- _ : 'M_(_, _)) _ _]mxE.
      have := zf_close l. rewrite -Rabs_Ropp Ropp_minus_distr. exact.
    - rewrite Rmult_comm big_scar. rewrite (eq_bigr (fun l => Rmult (dK i) (Rabs ((z - zh)%R l 0)))); last by move=> l _; exact: Rmult_comm.
      apply: (mul_le i 0 (a := fun i l => dK i) (b := fun l _ => Rabs ((z - zh)%R l 0))) => [i0 l|l j]; last by rewrite (ord1 j); exact: Rle_refl.
      rewrite [(K - _) _ _]mxE [(- _ : 'M_(_, _)) _ _]mxE. exact: HK. }
  apply: (abs_step _ G2). have E : x + K *m (z - zf) = x + K1 *m (z - zh) + (K *m (zh - zf) + (K - K1) *m (z - zh)).
  { rewrite -addrA. congr (x + _). rewrite mulmxBl !mulmxBr. move: (K *m z) (K *m zf) (K *m zh) (K1 *m z) (K1 *m zh) => a b c d f.
    exact: state_split. }
  rewrite E in G1. rewrite [((_ + (_ + _)) : 'M_(_, _)) i 0]mxE in G1. apply: Rle_trans G1 _. rewrite -[vN N]/v [((_ + _) : 'M_(_, _)) i 0]mxE [map_mx Rabs x _ _]mxE. right. by rewrite (_ : Rplus 4 3 = IZR 7); last by rlra.
Qed.

Lemma three_le (a b c d e1 e2 e3 e4 : R) : Rle (Rabs a) e1 -> Rle (Rabs b) e2 -> Rle (Rabs c) e3 -> Rle (Rabs d) e4 -> Rle (Rabs (- (a + b + c + d))) (Rplus (Rplus (Rplus e1 e2) e3) e4).
Proof.
  move=> A B C E. toR. rewrite Rabs_Ropp. apply: Rle_trans (Rabs_triang _ _) _. apply: Rplus_le_compat => //. apply: Rle_trans (Rabs_triang _ _) _. apply: Rplus_le_compat => //.
  apply: Rle_trans (Rabs_triang _ _) _. exact: Rplus_le_compat.
Qed.
Lemma quad_split (A D0 : 'M[R]_(n, m)) : (A + D0) *m S *m (A + D0)^T = A *m S *m A^T + (D0 *m S *m A^T + A *m S *m D0^T + D0 *m S *m D0^T).
Proof. rewrite [(A + D0)^T]linearD /= mulmxDl mulmxDl !mulmxDr. rewrite !addrA. congr (_ + _). exact: addrAC. Qed.
Lemma cov_split (K : 'M[R]_(n, m)) : S \in unitmx -> symmetric S ->
  P - K *m Sf *m K^T = P - K1 *m S *m K1^T + - (K *m (Sf - S) *m K^T + (K - K1) *m T^T + T *m (K - K1)^T + (K - K1) *m S *m (K - K1)^T).
Proof.
  move=> U SS. have KT : K1 *m S = T by rewrite /K1 mulmxKV. have TK : T^T = S *m K1^T by rewrite -KT trmx_mul SS.
  have Q := quad_split K1 (K - K1). rewrite [K1 + _]addrC subrK in Q. rewrite -addrA -opprD. congr (P - _).
  have -> : K *m Sf *m K^T = K *m S *m K^T + K *m (Sf - S) *m K^T by rewrite mulmxBr mulmxBl addrC subrK.
  rewrite Q KT TK mulmxA. rewrite -addrA. congr (_ + _). by rewrite addrC !addrA.
Qed.
Lemma cov_near (K : 'M[R]_(n, m)) : S \in unitmx -> symmetric S -> (forall i l, Rle (Rabs (Rminus (K i l) (K1 i l))) (dK i)) -> forall i j,
  Rle (Rabs (Rminus (map_mx r (P - mul_f dot (mul_f dot K Sf) K^T) i j) ((P - K1 *m S *m K1^T)%R i j)))
      (Rplus (Rmult (Rmult 9 v) (Rplus (Rabs (P i j)) (size_mul (size_mul K (meas_size W Z Rk)) K^T i j)))
             (Rplus (Rplus (Rplus (\sum_l Rmult (\sum_k Rmult (Rabs (K i k)) (meas_err W Z Rk k l)) (Rabs (K j l))) (Rmult (dK i) (tS j))) (Rmult (dK j) (tS i)))
                    (Rmult (Rmult (dK i) (dK j)) (\sum_l \sum_k Rabs (S k l))))).
Proof.
  move=> U SS HK i j. have Hr' := rel_rnd Hr.
  have N1 := @near_mul dot Hd N HN n m m 0 0 _ _ _ _ _ _ Hm ltac:(lra) ltac:(lra) ltac:(lra) ltac:(lra) (@near_refl N _ _ K) (near_bound Sf_le). rewrite size_mul_abs in N1.
  have N2 := @near_mul dot Hd N HN n m n (Rplus (Rplus 0 0) 3) 0 _ _ _ _ _ _ Hm ltac:(lra) ltac:(lra) ltac:(lra) ltac:(lra) N1 (@near_refl N _ _ K^T). rewrite size_mul_abs' in N2.
  have N3 : @ProofUpdateFloat.near N _ _ 6 (- mul_f dot (mul_f dot K Sf) K^T) (- (K *m Sf *m K^T)) (size_mul (size_mul K (meas_size W Z Rk)) K^T) by apply: near_opp; apply: (near_le HN _ N2); rlra.
  have N0 : @ProofUpdateFloat.near N _ _ 6 P P (map_mx Rabs P) by apply: (near_le HN _ (@near_refl N _ _ P)); rlra.
  have [G1 _] := near_add (k := IZR 6) Hr' HN ltac:(lra) ltac:(lra) (or_intror (fun i j => size_mul_tiny (size_mul K (meas_size W Z Rk)) K^T i j)) N0 N3 i j.
  rewrite (cov_split _ U SS) in G1. rewrite [((_ - _ + - _) : 'M_(_, _)) i j]mxE in G1. rewrite (_ : Rplus 6 3 = IZR 9) in G1; last by rlra.
  rewrite [(map_mx Rabs P + _) _ _]mxE [map_mx Rabs P _ _]mxE in G1.
  have Dl a b : Rle (Rabs ((K - K1)%R a b)) (dK a) by rewrite [(K - _) _ _]mxE [(- _ : 'M_(_, _)) _ _]mxE; exact: HK.
  apply: (abs_step G1). rewrite [(- _ : 'M_(_, _)) i j]mxE ![((_ + _) : 'M_(_, _)) i j]mxE. apply: three_le.
  - apply: (mul_le i j (a := fun i l => \sum_k Rmult (Rabs (K i k)) (meas_err W Z Rk k l)) (b := fun l j => Rabs (K j l))) => [a b|a b]; last by rewrite [K^T _ _]mxE; exact: Rle_refl.
    apply: (mul_le a b (a := fun i l => Rabs (K i l)) (b := fun l j => meas_err W Z Rk l j)) => [c d|c d]; first exact: Rle_refl. rewrite [(Sf - _) _ _]mxE [(- _ : 'M_(_, _)) _ _]mxE. exact: Sf_close.
  - rewrite [Rmult _ (tS j)]Rmult_comm /tS /row_sum big_scar. rewrite (eq_bigr (fun l => Rmult (dK i) (Rabs (T j l)))); last by move=> l _; exact: Rmult_comm.
    apply: (mul_le i j (a := fun i l => dK i) (b := fun l j => Rabs (T j l))) => [a b|a b]; first exact: Dl. rewrite [T^T _ _]mxE. exact: Rle_refl.
  - rewrite [Rmult _ (tS i)]Rmult_comm /tS /row_sum big_scar.
    apply: (mul_le i j (a := fun i l => Rabs (T i l)) (b := fun l j => dK j)) => [a b|a b]; first exact: Rle_refl. rewrite [(_^T) _ _]mxE. exact: Dl.
  - rewrite [Rmult _ (\sum__ _)]Rmult_comm big_scar. rewrite (eq_bigr (fun l => Rmult (\sum_k Rmult (dK i) (Rabs (S k l))) (dK j))).
    2:{ move=> l _. rewrite -Rmult_assoc. congr (Rmult _ _). rewrite big_scar. apply: eq_bigr => a _. exact: Rmult_comm. }
    apply: (mul_le i j (a := fun i l => \sum_k Rmult (dK i) (Rabs (S k l))) (b := fun l j => dK j)) => [a b|a b]; last by rewrite [(_^T) _ _]mxE; exact: Dl.
    apply: (mul_le a b (a := fun i l => dK i) (b := fun l j => Rabs (S l j))) => [c d|c d]; [exact: Dl|exact: Rle_refl].
Qed.
End U.

(** ** The update *)
Lemma wscat_cov m k (W : 'cV[R]_k) (Z : 'M[R]_(m, k)) : wscat W Z (wmean W Z) Z (wmean W Z) = cov (weights W) (points Z).
Proof. by []. Qed.
Lemma wscat_cross n m k (W : 'cV[R]_k) (Y : 'M[R]_(n, k)) x (Z : 'M[R]_(m, k)) : wscat W Y x Z (wmean W Z) = cross_cov W Y x Z.
Proof.
  apply/matrixP => a b. rewrite [RHS]mxE /wscat summxE. apply: eq_bigr => i _. rewrite !mxE big_ord_recl big_ord0 addr0 mulrA. congr (_ * _ * _); rewrite !mxE //.
Qed.
Section Total.
Variables (r : R -> R) (dot : dot_fun) (msub : R -> nat -> (nat -> R) -> (nat -> R) -> R) (N n m : nat).
Local Notation k := (2 * n + 1)%N.
Hypotheses (Hr : rel_ok r) (Hd : dot_ok dot) (Hs : msub_ok msub) (HN : Rle (INR N) 1000000) (Hn : (n <= N)%N) (Hm : (m <= N)%N) (Hk : (k <= N)%N).
Variables (W : 'cV[R]_k) (Y : 'M[R]_(n, k)) (x x1 : 'cV[R]_n) (Z : 'M[R]_(m, k)) (Rk : 'M[R]_m) (P P1 : 'M[R]_n) (z : 'cV[R]_m) (s M phi : R).
Hypotheses (D : distribution W) (SR : symmetric Rk).
Let zh : 'cV[R]_m := SpecKalman.mean (weights W) (points Z).
Let S : 'M[R]_m := meas_cov W Z Rk.
Let T : 'M[R]_(n, m) := cross_cov W Y x Z.
Hypotheses (KS : keeps s S) (s0 : Rlt 0 s) (SM : forall i j, Rle (Rabs (S i j)) M) (M0 : Rle 0 M) (Hphi : forall i j, Rle (meas_err W Z Rk i j) phi) (phi0 : Rle 0 phi).
Let v : R := Rmult (INR N + 1) u64.
Let e : R := Rmult 2 (Rmult (INR m) (Rplus (Rmult (Rmult 7 (Rmult (INR m + 2) u64)) (Rmult (pow 2 m) (Rplus M phi))) phi)).
Hypothesis es : Rlt e s.
Let tE i : R := \sum_l cross_err W Y x Z i l.
Let dK i : R := Rplus (Rplus (Rmult (Rmult 3 v) (Rplus (Rmult (Rdiv 2 s) (Rplus (row_sum T i) (tE i))) tiny64)) (Rmult (Rdiv 2 s) (tE i))) (Rmult (Rdiv e (Rmult s s)) (row_sum T i)).
Lemma ukf_update_near : exists (xe : 'cV[R]_n) (Pe : 'M[R]_n) (xf : 'cV[R]_n) (Pf : 'M[R]_n) (K : 'M[R]_(n, m)),
  filterUkfUpdate (DV x) (DM P) (DM Y) (DV W) (DM Z) (DV z) (DM Rk) (DV x1) (DM P1) = Ret (true, (DV xe, DM Pe)) /\
  filterUkfUpdate_f r dot (lu_mx r msub) x P Y W Z z Rk = Ret (xf, Pf) /\
  (forall i l, Rle (Rabs (Rminus (K i l) ((T *m invmx S) i l))) (dK i)) /\
  (forall i, Rle (Rabs (Rminus (xf i 0) (xe i 0)))
      (Rplus (Rmult (Rmult 7 v) (Rplus (Rabs (x i 0)) (size_mul K (resid_size W Z z) i 0)))
             (Rplus (\sum_l Rmult (Rabs (K i l)) (slip W Z l)) (Rmult (dK i) (\sum_l Rabs ((z - zh)%R l 0)))))) /\
  (forall i j, Rle (Rabs (Rminus (Pf i j) (Pe i j)))
      (Rplus (Rmult (Rmult 9 v) (Rplus (Rabs (P i j)) (size_mul (size_mul K (meas_size W Z Rk)) K^T i j)))
             (Rplus (Rplus (Rplus (\sum_l Rmult (\sum_k Rmult (Rabs (K i k)) (meas_err W Z Rk k l)) (Rabs (K j l))) (Rmult (dK i) (row_sum T j))) (Rmult (dK j) (row_sum T i)))
                    (Rmult (Rmult (dK i) (dK j)) (\sum_l \sum_k Rabs (S k l)))))).
Proof.
  have HkR : Rle (INR k) 1000000 by apply: Rle_trans HN; apply: le_INR; exact/leP.
  have US := keeps_unit KS s0. have SS : symmetric S by rewrite /S /meas_cov /symmetric linearD /= SR cov_sym.
  have EU := ukfUpdate_ok x x1 P P1 Y W Z z Rk. cbv zeta in EU. rewrite wscat_cov wscat_cross -/(meas_cov W Z Rk) -/S -/T US in EU.
  have [Si [ES BK]] := ukf_gain Hr Hd Hs HN Hm HkR Y x D KS s0 SM M0 Hphi phi0 es.
  eexists; eexists; eexists; eexists; exists (mul_f dot (scatter_f r 0 W Y x Z (mean_f r W Z)) Si). split; first exact: EU. split; first by rewrite /filterUkfUpdate_f ES.
  split; first exact: BK. split.
  - exact: (state_near Hr Hd HN Hm HkR z BK).
  - exact: (cov_near Hr Hd HN Hm HkR P D US SS BK).
Qed.
End Total.
