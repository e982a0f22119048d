(** Rounding errors of the estimates in long histories of filter calls. *)
From Coq Require Import Reals Lra Psatz.
From Flocq Require Import Core.Raux Core.Zaux.
From mathcomp Require Import all_ssreflect all_algebra.
From Verif Require Import Base BaseMx ModelEigen ModelKalman ModelDate ModelStrapdownFloat ModelFilterFloat ModelUpdateFloat ModelLongFloat SpecFloatOps SpecKalman SpecFilter SpecSteady
  SpecFilterFloat SpecUpdateFloat SpecDisturb SpecLopsided SpecLongFloat ProofMx ProofKalman ProofKalman2 ProofKalman4 ProofKalman5 ProofStrapdownFloat ProofStrapdownFloat2
  ProofFilterFloat1 ProofFilterFloat ProofUpdateFloat ProofSteady ProofSteady2 ProofDisturb ProofDisturb2 ProofLopsided ProofFine ProofLongFloat ProofLongFloat2.
Set Implicit Arguments.
Unset Strict Implicit.
Unset Printing Implicit Defensive.
Import GRing.Theory.
Local Open Scope ring_scope.

(** ** Numbers *)
Section Numbers.
Local Open Scope R_scope.
Lemma surprise_scal p a rho g kap S s nu : 0 < p -> 0 < a -> 0 < rho -> 0 <= g -> 0 <= s -> kap * rho = p * a -> p * (a * a) <= g * rho -> rho <= S ->
  S <= a * (3 / 2 * p) * a + rho -> Rabs nu <= s * sqrt S -> kap * Rabs nu <= 5 / 4 * (1 + g) * (s * sqrt p).
Proof.
  move=> P0 A0 Rh G0 S0 EK G SR SU N. have k0 : 0 < kap by have X : 0 < kap * rho by [rewrite EK; nra]; nra.
  have ka : kap * a <= g. { apply: (Rmult_le_reg_r rho) => //. have -> : kap * a * rho = p * (a * a) by rewrite -Rmult_assoc -EK; ring. exact: G. }
  have ka0 : 0 <= kap * a by nra.
  have KS : kap * kap * S <= 25 / 16 * ((1 + g) * (1 + g)) * p.
  { have X : kap * kap * S <= kap * kap * (a * (3 / 2 * p) * a + rho) by apply: Rmult_le_compat_l => //; nra.
    have -> : 25 / 16 * ((1 + g) * (1 + g)) * p = p * (25 / 16 * ((1 + g) * (1 + g))) by ring.
    apply: Rle_trans X _. have -> : kap * kap * (a * (3 / 2 * p) * a + rho) = p * (3 / 2 * ((kap * a) * (kap * a))) + kap * (kap * rho) by ring.
    rewrite EK. have -> : p * (3 / 2 * (kap * a * (kap * a))) + kap * (p * a) = p * (3 / 2 * (kap * a * (kap * a)) + kap * a) by ring.
    apply: Rmult_le_compat_l; first lra. have : kap * a * (kap * a) <= g * g by apply: Rmult_le_compat. nra. }
  have Q := sqrt_sqrt p (Rlt_le _ _ P0). have Q0 := sqrt_pos p. have W := sqrt_sqrt S ltac:(lra). have W0 := sqrt_pos S.
  apply: Rle_trans (Rmult_le_compat_l kap _ _ (Rlt_le _ _ k0) N) _.
  have -> : kap * (s * sqrt S) = s * (kap * sqrt S) by ring. have -> : 5 / 4 * (1 + g) * (s * sqrt p) = s * (5 / 4 * (1 + g) * sqrt p) by ring.
  apply: Rmult_le_compat_l => //. apply: Rsqr_incr_0_var; last by nra. rewrite /Rsqr.
  have -> : kap * sqrt S * (kap * sqrt S) = kap * kap * (sqrt S * sqrt S) by ring. rewrite W.
  have -> : 5 / 4 * (1 + g) * sqrt p * (5 / 4 * (1 + g) * sqrt p) = 25 / 16 * ((1 + g) * (1 + g)) * (sqrt p * sqrt p) by field. rewrite Q. exact: KS.
Qed.
Lemma state_scal v g X q t kap k z a nu xi d : 0 < v -> 0 <= g -> 0 <= X -> 0 <= q -> 0 < t -> 0 < a -> 0 <= kap -> kap * a <= g -> t <= X -> t * kap <= g * X ->
  Rabs xi <= X -> Rabs k <= 16 / 10 * kap -> 0 <= z -> z <= Rabs nu + a * X -> kap * Rabs nu <= 5 / 4 * (1 + g) * q -> Rabs d <= 221 * v * (1 + g) * kap ->
  12 * v * (Rabs xi + (Rabs k * (z + (a * X + t)) + t)) + Rabs (d * nu) <= v * ((1 + g) * (1 + g)) * (60 * X + 310 * q).
Proof.
  move=> V0 G0 X0 Q0 T0 A0 K0 KA TX TK XI KK Z0 Z KN D. have N0 := Rabs_pos nu.
  have aX : 0 <= a * X by nra.
  have X1 : Rabs k * (z + (a * X + t)) <= 16 / 10 * kap * (Rabs nu + a * X + (a * X + t)) by apply: Rmult_le_compat; try lra; exact: Rabs_pos.
  have X2 : kap * a * X <= g * X by apply: Rmult_le_compat_r.
  have gX : 0 <= g * X by nra. have gq : 0 <= g * q by nra.
  have X3 : Rabs xi + (Rabs k * (z + (a * X + t)) + t) <= (1 + g) * (5 * X + 2 * q) by lra.
  have X4 : Rabs (d * nu) <= 221 * v * (1 + g) * (5 / 4 * (1 + g) * q).
  { rewrite Rabs_mult. apply: Rle_trans (Rmult_le_compat_r _ _ _ N0 D) _. rewrite (Rmult_assoc _ kap). apply: Rmult_le_compat_l => //. nra. }
  have X5 : 12 * v * (Rabs xi + (Rabs k * (z + (a * X + t)) + t)) <= 12 * v * ((1 + g) * (5 * X + 2 * q)) by apply: Rmult_le_compat_l => //; lra.
  have w0 : 0 <= v * (1 + g) by nra. have w1 : v * (1 + g) * 1 <= v * (1 + g) * (1 + g) by apply: Rmult_le_compat_l => //; lra.
  have w2 : v * (1 + g) * (5 * X + 2 * q) <= v * (1 + g) * (1 + g) * (5 * X + 2 * q) by apply: Rmult_le_compat_r; lra.
  have w3 : 0 <= v * (1 + g) * (1 + g) * q by apply: Rmult_le_pos => //; lra. lra.
Qed.
Lemma ordinary_X p a rho g kap X : ordinary p -> ordinary a -> ordinary rho -> ordinary X -> 0 <= g -> kap * rho = p * a -> p * (a * a) <= g * rho ->
  tiny64 <= X /\ tiny64 * kap <= g * X.
Proof.
  move=> Op Oa Or OX G0 EK G. have [P0 A0 Rh _] := ordinary_facts Op Oa Or. have [X0 _ _ [TX _ _ _ _]] := ordinary_facts OX OX OX. split=> //.
  have T := tiny_cube. have T0 := tiny_pos. have [L0 L1] := L_small. have E := LU. have U0 := bpow_gt_0 radix2 300.
  have k0 : 0 < kap by have X1 : 0 < kap * rho by [rewrite EK; nra]; nra.
  have ka : kap * a <= g. { apply: (Rmult_le_reg_r rho) => //. have -> : kap * a * rho = p * (a * a) by rewrite -Rmult_assoc -EK; ring. exact: G. }
  have TA : tiny64 <= X * a.
  { move: OX Oa => [X1 _] [A1 _]. set L := bpow radix2 (-300) in T L0 L1 X1 A1 *. have X2 : L * L <= X * a by apply: Rmult_le_compat; lra. nra. }
  have Y := Rmult_le_compat_l kap _ _ (Rlt_le _ _ k0) TA. have Z := Rmult_le_compat_r X _ _ (Rlt_le _ _ X0) ka. lra.
Qed.
End Numbers.

(** ** One call *)
Lemma const_entry (z : R) (y : 'M[R]_1) i : ((const_mx z : 'M[R]_1) - y) i i = Rminus z (y 0 0).
Proof. by rewrite !ord1 !mxE. Qed.
Lemma sum_mul_le n (F G : 'I_n -> R) a X : Rle 0 X -> Rle (\sum_j Rabs (F j)) a -> (forall j, Rle (Rabs (G j)) X) -> Rle (Rabs (\sum_j F j * G j)) (Rmult a X).
Proof.
  move=> X0 HF HG. apply: Rle_trans (sum_abs _) _. apply: Rle_trans (_ : Rle _ (\sum_j Rmult X (Rabs (F j)))) _.
  - apply: sum_le => j. rewrite Rabs_mult Rmult_comm. apply: Rmult_le_compat_r; [exact: Rabs_pos|exact: HG].
  - rewrite -sum_scale Rmult_comm. exact: Rmult_le_compat_r.
Qed.
Lemma measure_state r dot n (p a rho g X s z : R) (P : 'M[R]_n) (H : 'rV[R]_n) (x xf : 'cV[R]_n) (Pf : 'M[R]_n) : rnd_ok r -> dot_ok dot -> Rle (INR n) 1000000 -> (0 < n)%N ->
  ordinary p -> ordinary a -> ordinary rho -> ordinary X -> Rle 0 g -> Rle 0 s -> Rle (Rmult p (Rmult a a)) (Rmult g rho) ->
  Rle (Rmult (Rmult 2210 (vN n)) (Rmult (Rplus 1 g) (Rplus 1 g))) 1 -> sized (Rmult (Rdiv 3 2) p) P -> Rle 0 ((H *m P *m H^T) 0 0) -> Rle (\sum_j Rabs (H 0 j)) a ->
  sized X x -> Rle (Rabs (Rminus z ((H *m x) 0 0))) (Rmult s (sqrt (Rplus ((H *m P *m H^T) 0 0) rho))) ->
  filterUpdate_f r dot (inv1_f r) x P (const_mx z : 'M[R]_1) H (const_mx rho) = Ret (xf, Pf) ->
  sized (Rmult (Rmult (vN n) (Rmult (Rplus 1 g) (Rplus 1 g))) (Rplus (Rmult 60 X) (Rmult 310 (Rmult s (sqrt p)))))
    (xf - (x + gain P H (const_mx rho) *m (const_mx z - H *m x))).
Proof.
  move=> Hr Hd HN N1 Op Oa Or OX G0 S0 G VG SP PP HH SX NU EF. have [V0 _] := vN_bounds HN. have T0 := tiny_pos.
  have [P0 A0 Rh [T1 T2 T3 T4 [T5 T6]]] := ordinary_facts Op Oa Or. have [X0 _ _ _] := ordinary_facts OX OX OX.
  have [K [EKf [DB KB]]] := measure_gain Hr Hd HN N1 P0 A0 Rh G0 G T2 T3 T4 T5 T6 VG SP PP HH.
  have [K' [EK' [BX _]]] := update_own_gain Hr Hd HN (leqnn n) N1 EF. have KK : K' = K by congruence. subst K'.
  set nu := Rminus z _ in NU. set kap := Rdiv (Rmult p a) rho in DB KB. have EKp : Rmult kap rho = Rmult p a by rewrite /kap; field; exact: Rgt_not_eq.
  have [TX TK] := ordinary_X Op Oa Or OX G0 EKp G. have ka := kap_a Rh G EKp. have k0 : Rlt 0 kap by apply: Rdiv_lt_0_compat => //; exact: Rmult_lt_0_compat.
  have HX : Rle (Rabs ((H *m x) 0 0)) (Rmult a X) by rewrite mxE; apply: sum_mul_le => //; lra.
  have ZB : Rle (Rabs z) (Rplus (Rabs nu) (Rmult a X)).
  { have -> : z = Rplus nu ((H *m x) 0 0) by rewrite /nu; ring. have := Rabs_triang nu ((H *m x) 0 0). lra. }
  set S := Rplus ((H *m P *m H^T) 0 0) rho in NU.
  have SG : Rle rho S by rewrite /S; lra.
  have SU : Rle S (Rplus (Rmult (Rmult a (Rmult (Rdiv 3 2) p)) a) rho).
  { have := S_up rho P0 A0 SP HH. rewrite mxE [const_mx _ _ _]mxE. exact. }
  have KN := surprise_scal P0 A0 Rh G0 S0 EKp G SG SU NU.
  have q0 : Rle 0 (Rmult s (sqrt p)) by apply: Rmult_le_pos => //; exact: sqrt_pos.
  move=> i j. rewrite (ord1 j) {j}. have [D1 _] := DB i.
  have B := @state_scal (vN n) g X (Rmult s (sqrt p)) tiny64 kap (K i ord0) (Rabs z) a nu (x i ord0) ((K - gain P H (const_mx rho))%R i ord0)
    V0 G0 (Rlt_le _ _ X0) q0 T0 A0 (Rlt_le _ _ k0) ka TX TK (SX i ord0) (KB i) (Rabs_pos z) ZB KN D1. apply: Rle_trans B.
  have E1 : xf - (x + gain P H (const_mx rho) *m (const_mx z - H *m x)) = (xf - (x + K *m (const_mx z - H *m x))) + (K - gain P H (const_mx rho)) *m (const_mx z - H *m x).
  { rewrite [(K - _) *m _]mulmxBl. mx_abel. }
  rewrite E1 mxE. apply: Rle_trans (Rabs_triang _ _) _. apply: Rplus_le_compat.
  - rewrite entry_sub. apply: Rle_trans (BX i) _. apply: Rmult_le_compat_l.
    { have := V0. rewrite /vN. lra. }
    rewrite /state_size mxE [map_mx _ _ _ _]mxE. apply: Rplus_le_compat_l. rewrite size1. apply: Rplus_le_compat_r. apply: Rmult_le_compat_l; first exact: Rabs_pos.
    rewrite mxE [map_mx _ _ _ _]mxE [const_mx _ _ _]mxE Rabs_right; last first.
    { apply: Rle_ge. apply: Rplus_le_le_0_compat; [exact: Rabs_pos|exact: size_ge0]. }
    apply: Rplus_le_compat_l. apply: size_row => //. lra.
  - right. rewrite mxE big_ord1 const_entry. done.
Qed.
Lemma predict_state r dot n (X b : R) (x : 'cV[R]_n) (P Phi Q : 'M[R]_n) : rnd_ok r -> dot_ok dot -> Rle (INR n) 1000000 -> ordinary X -> Rle 0 b ->
  (forall i, Rle (\sum_j Rabs (Phi i j)) b) -> sized X x ->
  sized (Rmult (Rmult 3 (vN n)) (Rmult (Rplus b 1) X)) ((filterPredict_f r dot x P Phi Q).1 - Phi *m x).
Proof.
  move=> Hr Hd HN OX B0 HB SX i j. have [V0 _] := vN_bounds HN. have [X0 _ _ [TX _ _ _ _]] := ordinary_facts OX OX OX. have T0 := tiny_pos.
  have A : near n 3 (mul_f dot Phi x) (Phi *m x) (size_mul Phi x).
  { have := @near_mul dot Hd n HN _ _ _ 0 0 _ _ _ _ _ _ (leqnn n) _ _ _ _ (near_refl n Phi) (near_refl n x). rewrite size_mul_abs size_mul_abs'. move=> W. apply: (near_le HN _ (W _ _ _ _)); rlra. }
  have [B _] := A i j. rewrite entry_sub. apply: Rle_trans B _. apply: Rmult_le_compat_l; first lra.
  have := @size_row _ _ _ Phi x i j b X (Rlt_le _ _ X0) (HB i) (fun q => SX q j). lra.
Qed.
Lemma within_entries n (A : 'M[R]_n) (c l : R) (u : 'cV[R]_n) : Rlt 0 l -> Rle 0 c -> (forall w, Rle (Rmult l (qf 1%:M w)) (qf A w)) -> sized c u ->
  within (Rmult (Rmult c c) (Rdiv (INR n) l)) A u.
Proof.
  move=> L C HA HE w. have F : Rle (Rabs ((w^T *m u) 0 0)) (Rmult (\sum_i Rabs (w i 0)) c).
  { rewrite mxE. apply: sum_mul_le => //. right. apply: eq_bigr => i _. by rewrite mxE. }
  have X := sq_le_abs F. apply: Rle_trans X _. have Y := cauchy w. set s := \sum_i _ in Y *. have Z := HA w. have n0 := pos_INR n.
  have cc : Rle 0 (Rmult c c) by exact: Rmult_le_pos.
  have -> : Rmult (Rmult s c) (Rmult s c) = Rmult (Rmult c c) (Rmult s s) by ring.
  rewrite [X in Rle _ X](Rmult_assoc (Rmult c c)). apply: Rmult_le_compat_l => //. apply: Rle_trans Y _. rewrite /Rdiv Rmult_assoc. apply: Rmult_le_compat_l => //. apply: (Rmult_le_reg_l l) => //. rewrite -Rmult_assoc Rinv_r ?Rmult_1_l //. exact: Rgt_not_eq.
Qed.
Lemma within_entry n (P : 'M[R]_n) (c : R) (u : 'cV[R]_n) i : psd P -> Rle 0 c -> within (Rmult c c) P u -> Rle (Rabs (u i 0)) (Rmult c (sqrt (P i i))).
Proof.
  move=> HP C W. have D := diag_ge0 i HP. apply: abs_sq; first by apply: Rmult_le_pos => //; exact: sqrt_pos.
  have := W (delta_mx i 0). rewrite /qf delta_entry trmx_delta -rowE mxE. have Q := sqrt_sqrt _ D. have -> : Rmult (Rmult c (sqrt (P i i))) (Rmult c (sqrt (P i i))) = Rmult (Rmult c c) (Rmult (sqrt (P i i)) (sqrt (P i i))) by ring.
  by rewrite Q.
Qed.

(** How surprised the running filter is. *)
Lemma surprise_up (z hx hy s q se sf : R) : Rle 0 s -> Rle 0 q -> Rle q 1 -> Rle 0 se -> Rle (Rdiv (Rmult 3 se) 4) sf -> Rle (Rabs (Rminus z hy)) (Rmult s (sqrt se)) ->
  Rle (Rmult (Rminus hx hy) (Rminus hx hy)) (Rmult (Rmult q q) se) -> Rle (Rabs (Rminus z hx)) (Rmult (Rmult (Rdiv 6 5) (Rplus s 1)) (sqrt sf)).
Proof.
  move=> S0 Q0 Q1 E0 EF H1 H2. have R1 := sqrt_pos se. have R2 := sqrt_sqrt _ E0. have F0 : Rle 0 sf by lra. have R3 := sqrt_pos sf. have R4 := sqrt_sqrt _ F0.
  have D : Rle (Rabs (Rminus hx hy)) (Rmult q (sqrt se)).
  { apply: abs_sq; first exact: Rmult_le_pos. have -> : Rmult (Rmult q (sqrt se)) (Rmult q (sqrt se)) = Rmult (Rmult q q) (Rmult (sqrt se) (sqrt se)) by ring. by rewrite R2. }
  have T : Rle (sqrt se) (Rmult (Rdiv 6 5) (sqrt sf)).
  { apply: Rsqr_incr_0_var; last by lra. rewrite /Rsqr. have -> : Rmult (Rmult (Rdiv 6 5) (sqrt sf)) (Rmult (Rdiv 6 5) (sqrt sf)) = Rmult (Rdiv 36 25) (Rmult (sqrt sf) (sqrt sf)) by field. rewrite R2 R4. lra. }
  have -> : Rminus z hx = Rplus (Rminus z hy) (Ropp (Rminus hx hy)) by ring. apply: Rle_trans (Rabs_triang _ _) _. rewrite Rabs_Ropp.
  have X := Rmult_le_compat_r _ _ _ R1 Q1. have s1 : Rle 0 (Rplus s 1) by lra. have Y := Rmult_le_compat_l _ _ _ s1 T. lra.
Qed.
Lemma qf11 (A : 'M[R]_1) (v : 'cV[R]_1) : qf A v = Rmult (Rmult (v 0 0) (v 0 0)) (A 0 0).
Proof. rewrite /qf mxE big_ord1 mxE big_ord1 mxE. change (Rmult (Rmult (v 0 0) (A 0 0)) (v 0 0) = Rmult (Rmult (v 0 0) (v 0 0)) (A 0 0)). ring. Qed.
Lemma within_scalar (A : 'M[R]_1) (u : 'M[R]_1) s : Rle 0 (A 0 0) -> Rle (Rabs (u 0 0)) (Rmult s (sqrt (A 0 0))) -> within (Rmult s s) A u.
Proof.
  move=> A0 U v. rewrite qf11 mxE big_ord1 mxE. have X := sq_le_abs U. have E := sqrt_sqrt _ A0. have V := Rle_0_sqr (v 0 0). rewrite /Rsqr in V.
  have E1 : Rmult (Rmult s (sqrt (A 0 0))) (Rmult s (sqrt (A 0 0))) = Rmult (Rmult s s) (A 0 0) by rewrite -[in RHS]E; ring. rewrite E1 in X.
  have := Rmult_le_compat_l _ _ _ V X. change (Rle (Rmult (Rmult (v 0 0) (v 0 0)) (Rmult (u 0 0) (u 0 0))) (Rmult (Rmult (v 0 0) (v 0 0)) (Rmult (Rmult s s) (A 0 0))) -> Rle (Rmult (Rmult (v 0 0) (u 0 0)) (Rmult (v 0 0) (u 0 0))) (Rmult (Rmult s s) (Rmult (Rmult (v 0 0) (v 0 0)) (A 0 0)))).
  move: (v 0 0) (u 0 0) (A 0 0) => a b c. lra.
Qed.
Definition wide (X p : R) : R := Rplus X (sqrt p).
Definition edge (s : R) : R := Rmult (Rdiv 6 5) (Rplus s 1).
Definition shift n (p b g X s : R) : R :=
  Rmult (Rmult (vN n) (Rplus (Rmult (Rplus 1 g) (Rplus 1 g)) (Rmult b b))) (Rplus (Rmult 60 X) (Rmult 440 (Rmult (Rplus s 1) (sqrt p)))).
Lemma pred_number v b g X s q : Rlt 0 v -> Rle 0 b -> Rle 0 g -> Rle 0 X -> Rle 0 s -> Rle 0 q ->
  Rle (Rmult (Rmult 3 v) (Rmult (Rplus b 1) (Rplus X q)))
      (Rmult (Rmult v (Rplus (Rmult (Rplus 1 g) (Rplus 1 g)) (Rmult b b))) (Rplus (Rmult 60 X) (Rmult 440 (Rmult (Rplus s 1) q)))).
Proof.
  move=> V0 B0 G0 X0 S0 Q0. have g1 : Rle 1 (Rmult (Rplus 1 g) (Rplus 1 g)) by nra. have b1 : Rle (Rplus b 1) (Rmult 2 (Rplus 1 (Rmult b b))) by nra.
  have bb := Rle_0_sqr b. rewrite /Rsqr in bb. have sq := Rmult_le_pos _ _ S0 Q0. set G := Rplus (Rmult (Rplus 1 g) (Rplus 1 g)) (Rmult b b).
  have G1 : Rle (Rplus b 1) (Rmult 2 G) by rewrite /G; lra. have G2 : Rle 1 G by rewrite /G; lra.
  have X1 : Rle (Rmult (Rplus b 1) (Rplus X q)) (Rmult (Rmult 2 G) (Rplus X q)) by apply: Rmult_le_compat_r; lra.
  have X2 := Rmult_le_compat_l _ _ _ (Rlt_le _ _ V0) X1. have VG : Rle 0 (Rmult v G) by apply: Rmult_le_pos; lra.
  have X3 : Rle (Rmult 6 (Rplus X q)) (Rplus (Rmult 60 X) (Rmult 440 (Rmult (Rplus s 1) q))) by lra. have := Rmult_le_compat_l _ _ _ VG X3. lra.
Qed.
Lemma meas_number v b g X s q : Rlt 0 v -> Rle 0 g -> Rle 0 X -> Rle 0 s -> Rle 0 q ->
  Rle (Rmult (Rmult v (Rmult (Rplus 1 g) (Rplus 1 g))) (Rplus (Rmult 60 (Rplus X q)) (Rmult 310 (Rmult (Rmult (Rdiv 6 5) (Rplus s 1)) q))))
      (Rmult (Rmult v (Rplus (Rmult (Rplus 1 g) (Rplus 1 g)) (Rmult b b))) (Rplus (Rmult 60 X) (Rmult 440 (Rmult (Rplus s 1) q)))).
Proof.
  move=> V0 G0 X0 S0 Q0. have sq := Rmult_le_pos _ _ S0 Q0. have g0 : Rle 0 (Rmult (Rplus 1 g) (Rplus 1 g)) by exact: Rle_0_sqr. have b0 : Rle 0 (Rmult b b) by exact: Rle_0_sqr.
  apply: Rmult_le_compat; [apply: Rmult_le_pos; lra|lra| |lra]. apply: Rmult_le_compat_l; lra.
Qed.
Lemma wide_ordinary X p : ordinary X -> ordinary p -> Rle (Rplus X (sqrt p)) (bpow radix2 300) -> ordinary (wide X p).
Proof. move=> [X1 X2] _ U. split=> //. have := sqrt_pos p. rewrite /wide. lra. Qed.
Lemma est_step r dot n (c : scall n) p b g a q X s (x x1 x2 y : 'cV[R]_n) (P P1 P2 Ph : 'M[R]_n) : rnd_ok r -> dot_ok dot -> Rle (INR n) 1000000 -> (0 < n)%N ->
  ordinary p -> ordinary (wide X p) -> Rle 0 X -> Rle 0 b -> Rle 0 g -> Rle 0 s -> Rle (Rmult (Rmult 2210 (vN n)) (Rmult (Rplus 1 g) (Rplus 1 g))) 1 ->
  psd P -> sized p P -> sound p b g c -> Rle 0 a -> Rle a (Rdiv 1 4) -> alike a P Ph -> Rle 0 q -> Rle q 1 -> within (Rmult q q) P (x - y) -> sized X y ->
  (if c is SUpdate z H rho then Rle (Rabs (Rminus z ((H *m y) 0 0))) (Rmult s (sqrt (Rplus ((H *m P *m H^T) 0 0) rho))) else True) ->
  call (exact_call c) (DV x) (DM Ph) = Ret (true, (DV x1, DM P1)) -> scall_f r dot c x Ph = Ret (x2, P2) ->
  sized (shift n p b g X s) (x2 - x1) /\
  (if exact_call c is Update _ z H Rk then within (Rmult (edge s) (edge s)) (H *m Ph *m H^T + Rk) (z - H *m x) else True).
Proof.
  move=> Hr Hd HN N1 Op OX X0 B0 G0 S0 VG HP SP SO A0 A1 L Q0 Q1 W SY SU C CF. have [V0 _] := vN_bounds HN.
  have [P0 _ _ _] := ordinary_facts Op Op Op. have P00 : Rle 0 p by lra. have A2 : Rle a (Rdiv 1 2) by lra.
  have [SPh _] := alike_sized HP P00 SP A0 A2 L. have sp := sqrt_pos p.
  have SX : sized (wide X p) x.
  { move=> i j. rewrite (ord1 j) {j}. have -> : x i 0 = Rplus (y i 0) ((x - y)%R i 0) by rewrite entry_sub; exact: sub_back.
    apply: Rle_trans (Rabs_triang _ _) _. apply: Rplus_le_compat; first exact: SY. apply: Rle_trans (within_entry i HP Q0 W) _.
    have D := sqrt_le_1_alt _ _ (sized_diag SP i). have := Rmult_le_compat _ _ _ _ Q0 (sqrt_pos _) Q1 D. lra. }
  case: c SO SU C CF => [Phi Q|z H rho] /= SO SU C CF.
  - split; last exact: I. case: SO => _ HB. move: C. rewrite predict_ok => /Ret_inj [_ <- _].
    have -> : x2 = (filterPredict_f r dot x Ph Phi Q).1 by case: CF => <-.
    move=> i j. apply: Rle_trans (predict_state Ph Q Hr Hd HN OX B0 HB SX i j) _. rewrite /shift /wide. exact: pred_number.
  - case: SO => Orho [a' [Oa [Ha Hg]]]. have [_ a0 rho0 _] := ordinary_facts Op Oa Orho.
    have EP : (H *m Ph *m H^T) 0 0 = qf Ph H^T by rewrite /qf trmxK. have EP0 : (H *m P *m H^T) 0 0 = qf P H^T by rewrite /qf trmxK.
    have HP0 := proj2 HP H^T. have HB : Rle (Rmult (Rminus 1 a) (qf P H^T)) (qf Ph H^T) by have := proj1 (alike_between A0 HP L) H^T; rewrite qfZ.
    have PP : Rle 0 ((H *m Ph *m H^T) 0 0) by rewrite EP; apply: scale_drop HP0 HB; lra.
    have HW : Rle (Rmult (Rminus ((H *m x) 0 0) ((H *m y) 0 0)) (Rminus ((H *m x) 0 0) ((H *m y) 0 0))) (Rmult (Rmult q q) (Rplus ((H *m P *m H^T) 0 0) rho)).
    { have := W H^T. rewrite trmxK mulmxBr entry_sub -EP0. move=> Z. apply: Rle_trans Z _. apply: Rmult_le_compat_l; first exact: Rmult_le_pos. lra. }
    have NU : Rle (Rabs (Rminus z ((H *m x) 0 0))) (Rmult (edge s) (sqrt (Rplus ((H *m Ph *m H^T) 0 0) rho))).
    { apply: surprise_up S0 Q0 Q1 _ _ SU HW; first by rewrite EP0; lra. rewrite EP EP0.
      have := Rmult_le_compat_r _ _ _ HP0 (_ : Rle (Rdiv 3 4) (Rminus 1 a)). move=> /(_ ltac:(lra)) Z. lra. }
    have e0 : Rle 0 (edge s) by rewrite /edge; lra. split.
    + have [U EX _] := update_inv C. rewrite EX. have M := measure_state Hr Hd HN N1 Op Oa Orho OX G0 e0 Hg VG SPh PP Ha SX NU CF.
      move=> i j. apply: Rle_trans (M i j) _. rewrite /shift /wide /edge. exact: meas_number.
    + have SE : (H *m Ph *m H^T + const_mx rho)%R 0 0 = Rplus ((H *m Ph *m H^T) 0 0) rho by rewrite mxE [const_mx _ _ _]mxE.
      apply: within_scalar; rewrite SE; first by move: PP; move: (_ 0 0) => w W0; lra. rewrite const_entry. exact: NU.
Qed.

(** ** Runs *)
Section Runs.
Variables (r : R -> R) (dot : dot_fun) (n m : nat) (p l b g d X s : R).
Hypotheses (Hr : rnd_ok r) (Hd : dot_ok dot) (HN : Rle (INR n) 1000000) (N1 : (0 < n)%N) (Op : ordinary p) (L0 : Rlt 0 l)
  (B0 : Rle 0 b) (B1 : Rle b (bpow radix2 300)) (G0 : Rle 0 g) (D : Rlt 0 d) (X0 : Rle 0 X) (OX : ordinary (wide X p)) (S0 : Rle 0 s).
Let e := Rdiv (Rmult (INR n) (eps n p b g)) (Rdiv l 2).
Let K := limit d (Rmult 2 e) m.
Let f := Rmult (shift n p b g X s) (sqrt (Rdiv (INR n) (Rdiv l 2))).
Let d' := Rminus (sqrt (Rplus 1 d)) 1.
Let g' := Rmult 2 (Rplus (Rmult K (edge s)) f).
Let C := limit d' (Rdiv g' 2) m.
Hypotheses (K14 : Rle K (Rdiv 1 4)) (KE : Rle (Rmult K K) e) (C1 : Rle C 1).
Let n1 : Rle 1 (INR n).
Proof. have := le_INR 1 n (elimT leP N1). exact. Qed.
Let p0 : Rlt 0 p.
Proof. by have [] := ordinary_facts Op Op Op. Qed.
Let v0 : Rlt 0 (vN n).
Proof. by have [] := vN_bounds HN. Qed.
Let GG : Rle 0 (Rplus (Rmult (Rplus 1 g) (Rplus 1 g)) (Rmult b b)).
Proof. have := Rle_0_sqr (Rplus 1 g). have := Rle_0_sqr b. rewrite /Rsqr. lra. Qed.
Let eps0 : Rle 0 (eps n p b g).
Proof. rewrite /eps. apply: Rmult_le_pos; last lra. apply: Rmult_le_pos; lra. Qed.
Let e0 : Rle 0 e.
Proof. rewrite /e. apply: Rmult_le_pos; last by left; apply: Rinv_0_lt_compat; lra. apply: Rmult_le_pos => //. lra. Qed.
Let e2 : Rle 0 (Rmult 2 e).
Proof. lra. Qed.
Let e18 : Rle (Rmult 2 e) (Rdiv 1 8).
Proof. have := limit_ge m D e2. rewrite -/K. lra. Qed.
Let sh0 : Rle 0 (shift n p b g X s).
Proof. rewrite /shift. apply: Rmult_le_pos; first by apply: Rmult_le_pos; lra. have := Rmult_le_pos (Rplus s 1) _ ltac:(lra) (sqrt_pos p). lra. Qed.
Let f0 : Rle 0 f.
Proof. apply: Rmult_le_pos => //. exact: sqrt_pos. Qed.
Let s0 : Rle 0 (edge s).
Proof. rewrite /edge. lra. Qed.
Let K0 : Rle 0 K.
Proof. have := limit_ge m D e2. rewrite -/K. lra. Qed.
Let g0 : Rle 0 g'.
Proof. rewrite /g'. have := Rmult_le_pos _ _ K0 s0. lra. Qed.
Let gf : Rle (Rmult 2 f) g'.
Proof. rewrite /g'. have := Rmult_le_pos _ _ K0 s0. lra. Qed.
Let g2 : Rle 0 (Rdiv g' 2).
Proof. lra. Qed.
Let d0 : Rlt 0 d'.
Proof. have [Q _] := root_facts D. rewrite /d'. lra. Qed.
Let ff : Rmult f f = Rmult (Rmult (shift n p b g X s) (shift n p b g X s)) (Rdiv (INR n) (Rdiv l 2)).
Proof.
  have Q : Rle 0 (Rdiv (INR n) (Rdiv l 2)) by apply: Rmult_le_pos; [lra|left; apply: Rinv_0_lt_compat; lra].
  rewrite /f -[in RHS](sqrt_sqrt _ Q). ring.
Qed.
Lemma estimates_bound h : forall k q (x y y' : 'cV[R]_n) (P Ph P' : 'M[R]_n), (k <= m)%N -> psd P -> tame p l b g h P -> calm X s h y P -> excited d [seq exact_call s | s <- h] P ->
  spaced m k [seq exact_call s | s <- h] -> alike (level d (Rmult 2 e) m k) P Ph -> Rle 0 q -> Rle q (level d' (Rdiv g' 2) m k) -> within (Rmult q q) P (x - y) ->
  run [seq exact_call s | s <- h] (DV y) (DM P) = Ret (true, (DV y', DM P')) ->
  exists (x' : 'cV[R]_n) (Ph' : 'M[R]_n), srun_f r dot h x Ph = Ret (x', Ph') /\ psd P' /\ alike K P' Ph' /\ within (Rmult C C) P' (x' - y').
Proof.
  have D0 : Rle 0 d by lra. have [R1 R2] := root_facts D. elim: h => [|c h IH] k q x y y' P Ph P' KM HP /=.
  - move=> SP _ _ _ W Q0 QL U /Ret_inj [_ <- <-]. exists x, Ph. split=> //. split=> //. split; first by apply: alike_le W => //; [exact: level_ge0|exact: level_le].
    apply: within_le U => //. apply: sq_le => //. apply: Rle_trans QL _. exact: level_le.
  - move=> [SP [SO TM]] [SY [SS CM]] [X1 X2] Sp W Q0 QL U. have V := sound_valid SO. have [y2 [S2 [F2 HS2]]] := call_valid y V HP. rewrite F2 /= => RU.
    have [LP TM2] := TM _ _ _ F2. have SP2 := tame_sized TM2. have X3 := X2 _ _ _ F2. have CM2 := CM _ _ F2.
    have VG := @small_sizes n m p l b g d HN N1 Op L0 D K14 S2 SP2 LP.
    have LE : Rle (level d (Rmult 2 e) m k) K := level_le m k D e2. have LG := level_ge0 D e2 KM.
    have L4 : Rle (level d (Rmult 2 e) m k) (Rdiv 1 4) by lra. have L2 : Rle (level d (Rmult 2 e) m k) (Rdiv 1 2) by lra.
    have [x1 [x2 [P1 [P2 [C1' [CF SZ]]]]]] := scall_step x Hr Hd HN N1 Op B0 B1 G0 VG HP SP SO LG L2 W F2 SP2.
    have Q1 : Rle q 1 by apply: Rle_trans QL _; apply: Rle_trans (level_le m k d0 g2) C1.
    have [SX SU] := est_step Hr Hd HN N1 Op OX X0 B0 G0 S0 VG HP SP SO LG L4 W Q0 Q1 U SY SS C1' CF.
    have W2 := call_alike LG L2 D0 V HP X1 W C1' F2.
    have U2 := call_drift2 D LG L2 s0 Q0 V HP X1 SU W U C1' F2.
    have LL : Rle (Rmult (level d (Rmult 2 e) m k) (level d (Rmult 2 e) m k)) e by apply: Rle_trans KE; exact: sq_le.
    have LD := div_le_self LG D0. have LD0 := div_pos LG D0. rewrite CF /=. have f2 : Rle 0 (Rmult 2 f) by lra.
    have XE : x2 - y2 = (x1 - y2) + (x2 - x1) by mx_abel.
    have fin k' a' q' : Rle 0 a' -> Rle a' (Rdiv 1 2) -> alike a' S2 P1 -> Rle (Rplus a' (Rmult 2 e)) (level d (Rmult 2 e) m k') -> (k' <= m)%N -> spaced m k' [seq exact_call s | s <- h] ->
      Rle 0 q' -> Rle (Rplus q' (Rmult 2 f)) (level d' (Rdiv g' 2) m k') -> within (Rmult q' q') S2 (x1 - y2) ->
      exists (x' : 'cV[R]_n) (Ph' : 'M[R]_n), srun_f r dot h x2 P2 = Ret (x', Ph') /\ psd P' /\ alike K P' Ph' /\ within (Rmult C C) P' (x' - y').
    { move=> a0 a1 WW LV KM' Sp' q0 QV UU. have low := psd_alike_low L0 LP a0 a1 HS2 WW. have l2 : Rlt 0 (Rdiv l 2) by lra. have AE : alike e P1 P2 by apply: alike_entries.
      have a11 : Rle a' 1 by lra. have W3 := alike_trans HS2 a0 a11 e0 WW AE.
      have FE : within (Rmult (Rmult 2 f) (Rmult 2 f)) S2 (x2 - x1).
      { have FF : within (Rmult f f) P1 (x2 - x1) by rewrite ff; exact: within_entries. have fp : Rle 0 (Rmult f f) by exact: Rmult_le_pos.
        apply: within_le (within_loewner fp (proj2 (alike_between a0 HS2 WW)) FF) => //. have := Rmult_le_compat_l _ _ _ fp a11. lra. }
      have U3 := within_add HS2 q0 f2 UU FE. rewrite -XE in U3.
      apply: (IH k' (Rplus q' (Rmult 2 f)) x2 y2 y' S2 P2 P' KM' HS2 TM2 CM2 X3 Sp' _ _ QV U3 RU); last by lra. apply: alike_le W3 => //. lra. }
    move: Sp W2 U2. case: c SO SS TM V X1 F2 X2 CM C1' CF SU => [Phi Q|z H rho] SO SS TM V X1 F2 X2 CM C1' CF SU /= Sp W2 U2.
    + apply: (fin m _ _ LD0 _ W2 _ (leqnn m) Sp _ _ U2); [lra|have := level_predict m k D e2; lra| |].
      * apply: Rmult_le_pos => //. left. apply: Rinv_0_lt_compat. lra.
      * have Lr := level_root D g0 KM. rewrite -/d' in Lr.
        have Pl' : Rle (Rdiv q (sqrt (Rplus 1 d))) (Rdiv (level d' (Rdiv g' 2) m k) (sqrt (Rplus 1 d))). { apply: Rmult_le_compat_r => //. left; apply: Rinv_0_lt_compat; lra. }
        lra.
    + case: k KM W W2 Sp LE LG L4 L2 LL LD LD0 QL U2 => [|k] KM W W2 //= Sp LE LG L4 L2 LL LD LD0 QL U2. set lv := level d (Rmult 2 e) m k.+1 in LE LG L4 L2 LL W2 U2 *.
      have ll0 : Rle 0 (Rmult lv lv) by exact: Rle_0_sqr. have ls : Rle 0 (Rmult lv (edge s)) by exact: Rmult_le_pos.
      apply: (fin k _ _ _ _ W2 _ (ltnW KM) Sp _ _ U2); [lra| |have := level_update d (Rmult 2 e) m k; rewrite -/lv; lra|lra|].
      * have := Rmult_le_compat_l _ _ _ LG L4. lra.
      * have := level_update d' (Rdiv g' 2) m k. have := Rmult_le_compat_r _ _ _ s0 LE. have Eg : g' = Rmult 2 (Rplus (Rmult K (edge s)) f) := erefl. lra.
Qed.
End Runs.
Lemma long_estimates r dot n m (p l b g d X s : R) (h : seq (scall n)) (x : 'cV[R]_n) (P : 'M[R]_n) :
  rnd_ok r -> dot_ok dot -> Rle (INR n) 1000000 -> (0 < n)%N -> ordinary p -> Rlt 0 l -> Rle 0 b -> Rle b (bpow radix2 300) -> Rle 0 g -> Rlt 0 d ->
  Rle 0 X -> ordinary (Rplus X (sqrt p)) -> Rle 0 s ->
  let G := Rplus (Rmult (Rplus 1 g) (Rplus 1 g)) (Rmult b b) in
  let e := Rmult (Rmult (Rmult 1000 (INR n)) (Rmult (Rplus (INR n) 1) u64)) (Rmult (Rdiv p l) G) in
  let w := Rmult (Rplus (INR m) 1) (Rplus 1 (Rinv d)) in
  let f := Rmult (Rmult (Rmult (Rmult (Rplus (INR n) 1) u64) G) (Rplus (Rmult 60 X) (Rmult 440 (Rmult (Rplus s 1) (sqrt p))))) (sqrt (Rdiv (Rmult 2 (INR n)) l)) in
  let c := Rmult (Rmult 4 w) (Rplus (Rmult (Rmult (Rmult 5 e) w) (Rplus s 1)) f) in
  Rle (Rmult (Rmult 16 e) (Rmult w w)) 1 -> Rle c 1 ->
  psd P -> tame p l b g h P -> calm X s h x P -> excited d [seq exact_call s | s <- h] P -> spaced m m [seq exact_call s | s <- h] ->
  exists (xf xe : 'cV[R]_n) (Pf Pe : 'M[R]_n), srun_f r dot h x P = Ret (xf, Pf) /\
    run [seq exact_call s | s <- h] (DV x) (DM P) = Ret (true, (DV xe, DM Pe)) /\ psd Pe /\ within (Rmult c c) Pe (xf - xe).
Proof.
  move=> Hr Hd HN N1 Op L0 B0 B1 G0 D X0 OX S0 G e w f c EW C1 HP TM CM X1 Sp. have M := pos_INR m. have I : Rlt 0 (Rinv d) by exact: Rinv_0_lt_compat.
  have w1 : Rle 1 w by rewrite /w; have := Rmult_le_pos _ _ M (Rlt_le _ _ I); lra.
  pose e' := Rdiv (Rmult (INR n) (eps n p b g)) (Rdiv l 2). have EE : e' = e by rewrite /e' /e /eps /vN /G; field; lra.
  have n1 : Rle 1 (INR n) by have := le_INR 1 n (elimT leP N1).
  have [p0 _ _ _] := ordinary_facts Op Op Op. have [v0 _] := vN_bounds HN.
  have GG : Rle 0 G by have := Rle_0_sqr (Rplus 1 g); have := Rle_0_sqr b; rewrite /G /Rsqr; lra.
  have E0 : Rle 0 e.
  { rewrite /e. apply: Rmult_le_pos.
    - apply: Rmult_le_pos; first lra. move: v0. rewrite /vN. toR. lra.
    - apply: Rmult_le_pos => //. apply: Rmult_le_pos; [lra|left; exact: Rinv_0_lt_compat]. }
  have KL : limit d (Rmult 2 e') m = Rmult (Rmult 4 e) w by rewrite EE /limit /w; ring.
  have K14 : Rle (limit d (Rmult 2 e') m) (Rdiv 1 4).
  { rewrite KL. have : Rle (Rmult (Rmult (Rmult 16 e) w) 1) (Rmult (Rmult (Rmult 16 e) w) w) by apply: Rmult_le_compat_l => //; apply: Rmult_le_pos; lra. lra. }
  have KE : Rle (Rmult (limit d (Rmult 2 e') m) (limit d (Rmult 2 e') m)) e'.
  { rewrite KL EE. have := Rmult_le_compat_l _ _ _ E0 EW. lra. }
  pose f' := Rmult (shift n p b g X s) (sqrt (Rdiv (INR n) (Rdiv l 2))).
  have EF : f' = f. { rewrite /f' /f /shift /vN -/G. congr (Rmult _ (sqrt _)). field. lra. }
  have f0 : Rle 0 f.
  { rewrite -EF. apply: Rmult_le_pos; last exact: sqrt_pos. rewrite /shift -/G. apply: Rmult_le_pos; first by apply: Rmult_le_pos; lra. have := Rmult_le_pos (Rplus s 1) _ ltac:(lra) (sqrt_pos p). lra. }
  pose g' := Rmult 2 (Rplus (Rmult (limit d (Rmult 2 e') m) (edge s)) f').
  have ew : Rle 0 (Rmult e w) by apply: Rmult_le_pos; lra. have ews : Rle 0 (Rmult (Rmult e w) (Rplus s 1)) by apply: Rmult_le_pos; lra.
  have g0 : Rle 0 g' by rewrite /g' KL EF /edge; lra.
  have GC : Rle (Rmult (Rmult (Rmult 2 g') (Rplus (INR m) 1)) (Rplus 1 (Rinv d))) c.
  { rewrite (Rmult_assoc (Rmult 2 g')) -/w /c /g' KL EF /edge. have X2 := Rmult_le_pos _ _ (_ : Rle 0 w) ews. have X3 := X2 ltac:(lra). lra. }
  have LC := Rle_trans _ _ _ (root_limit m D g0) GC.
  have V : all_valid [seq exact_call s | s <- h] by exact: tame_valid TM.
  have [xe [Pe [RU HPe]]] := run_valid x V HP.
  have W0 : alike (level d (Rmult 2 e') m m) P P by exact: alike_refl.
  have [R1 _] := root_facts D. have D' : Rlt 0 (Rminus (sqrt (Rplus 1 d)) 1) by lra. have G2 : Rle 0 (Rdiv g' 2) by lra.
  have U0 : within (Rmult 0 0) P (x - x) by rewrite subrr; apply: within0 => //; rewrite Rmult_0_l; exact: Rle_refl.
  have [xf [Pf [RF [_ [_ W]]]]] := estimates_bound Hr Hd HN N1 Op L0 B0 B1 G0 D X0 OX S0 K14 KE (Rle_trans _ _ _ LC C1) (leqnn m) HP TM CM X1 Sp W0 (Rle_refl 0) (level_ge0 D' G2 (leqnn m)) U0 RU.
  exists xf, xe, Pf, Pe. apply: (conj RF (conj RU (conj HPe _))). apply: within_le W => //. apply: sq_le => //. have := limit_ge m D' G2. rewrite -/g'. lra.
Qed.

(** ** A case *)
Lemma watch_est (k : 'I_2) (z : R) (x x' : 'cV[R]_2) (P P' : 'M[R]_2) : Rle 0 (P k k) ->
  call (exact_call (SUpdate z (watch k) 1)) (DV x) (DM P) = Ret (true, (DV x', DM P')) ->
  forall i, x' i 0 = Rplus (x i 0) (Rmult (Rdiv (P i k) (Rplus (P k k) 1)) (Rminus z (x k 0))).
Proof.
  move=> P0 E i. have [U -> _] := update_inv E. have Sp : Rlt 0 ((watch k *m P *m (watch k)^T + (const_mx R1 : 'M[R]_1))%R ord0 ord0) by rewrite watch_innov; lra.
  rewrite mxE [(gain _ _ _ *m _) _ _]mxE big_ord1 const_entry. have -> := @gain_single 2 P (watch k) (const_mx R1) Sp i.
  by rewrite watch_innov mul_watch watch_mul.
Qed.
Lemma half_mix (x z : R) : Rle (Rabs x) 1 -> Rle (Rabs z) 1 -> Rle (Rabs (Rplus x (Rmult (Rdiv 1 (Rplus 1 1)) (Rminus z x)))) 1.
Proof. move=> X Z. have -> : Rplus x (Rmult (Rdiv 1 (Rplus 1 1)) (Rminus z x)) = Rmult (Rdiv 1 2) (Rplus x z) by field. rewrite Rabs_mult (Rabs_right (Rdiv 1 2)); last lra. have := Rabs_triang x z. lra. Qed.
Lemma no_mix (x z k : R) : Rle (Rabs x) 1 -> Rle (Rabs (Rplus x (Rmult (Rdiv 0 k) z))) 1.
Proof. move=> X. have -> : Rplus x (Rmult (Rdiv 0 k) z) = x by rewrite /Rdiv !Rmult_0_l Rplus_0_r. exact: X. Qed.
Lemma watch_sized (k : 'I_2) (z : R) (x x' : 'cV[R]_2) (P P' : 'M[R]_2) : P k k = R1 -> (forall i, i != k -> P i k = R0) -> Rle (Rabs z) 1 -> sized 1 x ->
  call (exact_call (SUpdate z (watch k) 1)) (DV x) (DM P) = Ret (true, (DV x', DM P')) -> sized 1 x'.
Proof.
  move=> E1 E0 Z SX C. have P0 : Rle 0 (P k k) by rewrite E1; exact: Rle_0_1. have EX := watch_est P0 C. move=> i j. rewrite (ord1 j) EX E1.
  case: (boolP (i == k)) => [/eqP ->|N]; first by rewrite E1; apply: half_mix => //; exact: SX. rewrite (E0 _ N). apply: no_mix. exact: SX.
Qed.
Lemma watch_surprise (k : 'I_2) (z : R) (x : 'cV[R]_2) (P : 'M[R]_2) : P k k = R1 -> Rle (Rabs z) 1 -> sized 1 x ->
  Rle (Rabs (Rminus z ((watch k *m x) 0 0))) (Rmult 2 (sqrt (Rplus ((watch k *m P *m (watch k)^T) 0 0) 1))).
Proof.
  move=> E1 Z SX. rewrite mul_watch !watch_mul E1. have X := SX k 0. move: X. move: (x k _) => y X. have T := Rabs_triang z (Ropp y). rewrite Rabs_Ropp in T.
  have Q : Rle 1 (sqrt (Rplus R1 1)) by rewrite -{1}sqrt_1; apply: sqrt_le_1_alt; toR; lra. move: Q. move: (sqrt _) => w Q. rewrite /Rminus. lra.
Qed.
Lemma rounds_calm zs : forall x : 'cV[R]_2, sized 1 x -> (forall z, z \in zs -> Rle (Rabs z.1) 1 /\ Rle (Rabs z.2) 1) -> calm 1 2 (rounds zs) x 1%:M.
Proof.
  elim: zs => [|[z1 z2] zs IH] x SX HZ; first exact: I. have [Z1 Z2] := HZ _ (mem_head _ _). rewrite [rounds _]/=.
  have A1 : (1%:M : 'M[R]_2) 0 0 = R1 by rewrite mxE. have A0 i : i != 0 -> (1%:M : 'M[R]_2) i 0 = R0 by move=> /negbTE N; rewrite mxE N.
  have B1 : half_way 1 1 = R1 by rewrite mxE. have B0 i : i != 1 -> half_way i 1 = R0 by case: i => [[|[|i]] Hi] //= _; rewrite mxE.
  apply: (conj SX (conj (watch_surprise A1 Z1 SX) _)) => x2 P2 C. have S2 := watch_sized A1 A0 Z1 SX C. move/round1: C => ->.
  apply: (conj S2 (conj (watch_surprise B1 Z2 S2) _)) => x3 P3 C. have S3 := watch_sized B1 B0 Z2 S2 C. move/round2: C => ->.
  apply: (conj S3 (conj I _)) => x4 P4 C. have E4 : x4 = x3 by move: C; rewrite /= predict_ok => /Ret_inj [_ <- _]; rewrite mul1mx. move/round3: C => ->. rewrite E4.
  apply: IH => // z Hz. apply: HZ. by rewrite inE Hz orbT.
Qed.
Lemma estimates_case zs (x : 'cV[R]_2) : sized 1 x -> (forall z, z \in zs -> Rle (Rabs z.1) 1 /\ Rle (Rabs z.2) 1) ->
  exists (xf xe : 'cV[R]_2) (Pf Pe : 'M[R]_2), srun_f rnd64 (@dot_loop rnd64) (rounds zs) x 1%:M = Ret (xf, Pf) /\
  run [seq exact_call s | s <- rounds zs] (DV x) (DM (1%:M : 'M[R]_2)) = Ret (true, (DV xe, DM Pe)) /\
  within (Rmult (Rdiv 2 100000000) (Rdiv 2 100000000)) Pe (xf - xe).
Proof.
  move=> SX HZ. have [U0 _] := u64_bounds. have U := u64_e16.
  have N2 : Rle (INR 2) 1000000 by rewrite /=; lra. have O := ordinary1.
  have O2 : ordinary (Rplus 1 (sqrt 1)).
  { rewrite sqrt_1. have [A _] := O. split; first lra. have -> : Rplus 1 1 = bpow radix2 1 by []. exact: bpow_le. }
  have := @long_estimates rnd64 (@dot_loop rnd64) 2 2 1 (Rdiv 1 2) 1 1 1 1 2 (rounds zs) x 1%:M rnd64_rnd_ok (dot_loop_ok rnd64_rnd_ok) N2 isT O ltac:(lra) ltac:(lra) (proj2 O) ltac:(lra) ltac:(lra) ltac:(lra) O2 ltac:(lra).
  cbv zeta. have -> : INR 2 = IZR 2 by rewrite /=; ring. rewrite sqrt_1.
  set e := Rmult (Rmult (Rmult 1000 2) _) _. set w := Rmult _ (Rplus 1 (Rinv 1)). set q := sqrt _. set c := Rmult (Rmult 4 w) _.
  have Ee : e = Rmult 60000 u64 by rewrite /e; field. have Ew : w = IZR 6 by rewrite /w; field.
  have q0 : Rle 0 q by exact: sqrt_pos. have q3 : Rle q 3.
  { rewrite /q -(sqrt_square 3); last lra. apply: sqrt_le_1_alt. lra. }
  have uq : Rle (Rmult u64 q) (Rmult u64 3) by apply: Rmult_le_compat_l; lra. have uq0 : Rle 0 (Rmult u64 q) by apply: Rmult_le_pos; lra.
  have CB : Rle c (Rdiv 2 100000000) by rewrite /c Ee Ew; lra. have C0 : Rle 0 c by rewrite /c Ee Ew; lra. clearbody c.
  have EW : Rle (Rmult (Rmult 16 e) (Rmult w w)) 1 by rewrite Ee Ew; lra.
  have C1 : Rle c 1 by lra.
  move=> /(_ EW C1 (pd_psd (pd1 2)) (rounds_tame zs) (rounds_calm SX HZ) (rounds_excited zs) (rounds_spaced zs)) [xf [xe [Pf [Pe [E1 [E2 [HP A]]]]]]].
  exists xf, xe, Pf, Pe. apply: (conj E1 (conj E2 _)). apply: within_le A => //. exact: sq_le.
Qed.
