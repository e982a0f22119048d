(** No overflow in the unscented update of a filter of any size. *)
From Coq Require Import Reals ZArith Lra Lia Psatz.
From Flocq Require Import Core.
From mathcomp Require Import all_ssreflect all_algebra.
From Verif Require Import Base BaseMx ModelDate ModelFilterFloat ModelUpdateFloat ModelUkfFloat SpecOverflow ProofRnd ProofMx ProofOverflow ProofOverflow2 ProofOverflow4
  ProofOverflow7 ProofOverflow15.
Set Implicit Arguments.
Unset Strict Implicit.
Unset Printing Implicit Defensive.
Import GRing.Theory.
Local Open Scope ring_scope.
Local Arguments Z.pow : simpl never.

Lemma mean_same r n k (W : 'cV[R]_k) (Y : 'M[R]_(n, k)) : binary64_in_range r -> Z.le (Z.of_nat k) (Z.pow 2 20) ->
  (forall i, bd 40 (W i ord0)) -> (forall i j, bd 40 (Y i j)) -> mean_f r W Y = mean_f rnd64 W Y /\ forall a, bd 101 (mean_f rnd64 W Y a ord0).
Proof.
  move=> Hr Hk HW HY.
  have P a i : bd 80 (Rmult (W i ord0) (Y a i)) by exact: (bd_mul 40 40).
  have PE a i : r (Rmult (W i ord0) (Y a i)) = rnd64 (Rmult (W i ord0) (Y a i)) by apply: (same r Hr 80); [exact: P|lia].
  have PB a i : bd 80 (r (Rmult (W i ord0) (Y a i))) by rewrite PE; apply: bd_rnd; [lia|exact: P].
  have M a := @acc_same r 80 k R0 (fun i => r (Rmult (W i ord0) (Y a i))) (fun i => rnd64 (Rmult (W i ord0) (Y a i))) Hr ltac:(lia) Hk (PE a) (PB a) (bd_0 80).
  split.
  - apply/matrixP=> a b. rewrite !mxE. by have [-> _] := M a.
  - move=> a. rewrite mxE. by have [_] := M a.
Qed.
Lemma scatter_same r n m k (C : 'M[R]_(n, m)) (W : 'cV[R]_k) (A : 'M[R]_(n, k)) (a : 'cV[R]_n) (B : 'M[R]_(m, k)) (b : 'cV[R]_m) u v :
  binary64_in_range r -> Z.le (Z.of_nat k) (Z.pow 2 20) -> Z.le 41 u /\ Z.le u 110 -> Z.le 41 v /\ Z.le v 110 ->
  (forall i, bd 40 (W i ord0)) -> (forall i j, bd (Z.sub u 1) (A i j)) -> (forall i, bd (Z.sub u 1) (a i ord0)) ->
  (forall i j, bd (Z.sub v 1) (B i j)) -> (forall i, bd (Z.sub v 1) (b i ord0)) -> (forall i j, bd 40 (C i j)) ->
  scatter_f r C W A a B b = scatter_f rnd64 C W A a B b /\ forall i j, bd (Z.add 61 (Z.add u v)) (scatter_f rnd64 C W A a B b i j).
Proof.
  move=> Hr Hk Hu Hv HW HA Ha HB Hb HC.
  have D1 p i : bd u (Rminus (A p i) (a p ord0)) by have := bd_sub _ _ _ (HA p i) (Ha p); have -> : Z.add (Z.sub u 1) 1 = u by lia.
  have D2 q i : bd v (Rminus (B q i) (b q ord0)) by have := bd_sub _ _ _ (HB q i) (Hb q); have -> : Z.add (Z.sub v 1) 1 = v by lia.
  have R1 p i : bd u (rnd64 (Rminus (A p i) (a p ord0))) by apply: bd_rnd; [lia|exact: D1].
  have R2 q i : bd v (rnd64 (Rminus (B q i) (b q ord0))) by apply: bd_rnd; [lia|exact: D2].
  have M1 p i := bd_mul _ _ _ _ (HW i) (R1 p i).
  have N1 p i : bd (Z.add 40 u) (rnd64 (Rmult (W i ord0) (rnd64 (Rminus (A p i) (a p ord0))))) by apply: bd_rnd; [lia|exact: M1].
  have M2 p q i := bd_mul _ _ _ _ (N1 p i) (R2 q i).
  pose t p q i := r (Rmult (r (Rmult (W i ord0) (r (Rminus (A p i) (a p ord0))))) (r (Rminus (B q i) (b q ord0)))).
  pose t' p q i := rnd64 (Rmult (rnd64 (Rmult (W i ord0) (rnd64 (Rminus (A p i) (a p ord0))))) (rnd64 (Rminus (B q i) (b q ord0)))).
  have E p q i : t p q i = t' p q i.
  { rewrite /t /t'. rewrite (same r Hr _ _ (D1 p i)); last lia. rewrite (same r Hr _ _ (D2 q i)); last lia. rewrite (same r Hr _ _ (M1 p i)); last lia.
    rewrite (same r Hr _ _ (M2 p q i)) //. lia. }
  have T p q i : bd (Z.add (Z.add 40 u) v) (t p q i) by rewrite E; apply: bd_rnd; [lia|exact: M2].
  have CB p q : bd (Z.add (Z.add 40 u) v) (C p q) by apply: (bd_w 40); [exact: HC|lia].
  have S p q := @acc_same r (Z.add (Z.add 40 u) v) k (C p q) (t p q) (t' p q) Hr ltac:(lia) Hk (E p q) (T p q) (CB p q).
  split.
  - apply/matrixP=> p q. rewrite !mxE. by have [-> _] := S p q.
  - move=> p q. rewrite mxE. have [_] := S p q. by have -> : Z.add 21 (Z.add (Z.add 40 u) v) = Z.add 61 (Z.add u v) by lia.
Qed.
Section U.
Variables (r : R -> R) (n m k : nat) (inv : 'M[R]_m -> outcome 'M[R]_m) (x : 'cV[R]_n) (P : 'M[R]_n) (Y : 'M[R]_(n, k)) (W : 'cV[R]_k) (Z : 'M[R]_(m, k)) (z : 'cV[R]_m) (Rk : 'M[R]_m).
Hypotheses (Hr : binary64_in_range r) (Hm : Z.le (Z.of_nat m) (Z.pow 2 20)) (Hk : Z.le (Z.of_nat k) (Z.pow 2 20)).
Hypotheses (Hx : forall i, bd 40 (x i ord0)) (HP : forall i j, bd 40 (P i j)) (HY : forall i j, bd 40 (Y i j)) (HW : forall i, bd 40 (W i ord0))
  (HZ : forall i j, bd 40 (Z i j)) (Hz : forall i, bd 40 (z i ord0)) (HR : forall i j, bd 40 (Rk i j)).
Hypothesis HV : forall V, inv (scatter_f rnd64 Rk W Z (mean_f rnd64 W Z) Z (mean_f rnd64 W Z)) = Ret V -> forall i j, bd 40 (V i j).
Lemma ukf_update_same : filterUkfUpdate_f r (@dot_loop r) inv x P Y W Z z Rk = filterUkfUpdate_f rnd64 (@dot_loop rnd64) inv x P Y W Z z Rk.
Proof.
  rewrite /filterUkfUpdate_f. have [E0 B0] := mean_same Hr Hk HW HZ. rewrite E0. move: HV. set zh := mean_f rnd64 W Z in B0 *. clearbody zh.
  have HZ' i j : bd 101 (Z i j) by apply: (bd_w 40); [exact: HZ|lia].
  have [ES BS] := @scatter_same r m m k Rk W Z zh Z zh 102 102 Hr Hk ltac:(lia) ltac:(lia) HW HZ' B0 HZ' B0 HR.
  rewrite ES. set S := scatter_f rnd64 Rk W Z zh Z zh in BS *. clearbody S => HV'.
  have H0 (i : 'I_n) (j : 'I_m) : bd 40 ((0 : 'M[R]_(n, m)) i j) by rewrite mxE; exact: (bd_0 40).
  have [ET BT] := @scatter_same r n m k 0 W Y x Z zh 41 102 Hr Hk ltac:(lia) ltac:(lia) HW HY Hx HZ' B0 H0.
  rewrite ET. set T := scatter_f rnd64 0 W Y x Z zh in BT *. clearbody T. case EV : (inv S) => [V| | | |] //=. have BV := HV' V EV.
  have [E1 B1] := @mul_same r 204 40 n m m T V Hr ltac:(lia) Hm BT BV. rewrite E1. set K := mul_f _ T V in B1 *. clearbody K.
  have BN (i : 'I_m) (j : 'I_1) : bd 102 ((z - zh : 'cV[R]_m) i j).
  { rewrite !mxE (ord1 j). toR. apply: (sum_w 40 101); [exact: Hz|apply: bd_opp; exact: B0|lia|lia]. }
  have [E2 B2] := @map_same r 102 m 1 _ Hr ltac:(lia) BN. rewrite E2. set nu := map_mx rnd64 _ in B2 *. clearbody nu.
  have [E3 B3] := @mul_same r 264 102 n m 1 K nu Hr ltac:(lia) Hm B1 B2.
  have BX (i : 'I_n) (j : 'I_1) : bd 387 ((x + mul_f (@dot_loop rnd64) K nu : 'cV[R]_n) i j).
  { rewrite mxE (ord1 j). toR. apply: (sum_w 40 386); [exact: Hx|exact: B3|lia|lia]. }
  have [E4 _] := @map_same r 387 n 1 _ Hr ltac:(lia) BX. rewrite E3 E4.
  have [E5 B5] := @mul_same r 264 265 n m m K S Hr ltac:(lia) Hm B1 BS.
  have [E6 B6] := @mul_same r 549 264 n m n (mul_f (@dot_loop rnd64) K S) K^T Hr ltac:(lia) Hm B5 (fun i j => ltac:(rewrite mxE; exact: B1)).
  have BP (i j : 'I_n) : bd 834 ((P - mul_f (@dot_loop rnd64) (mul_f (@dot_loop rnd64) K S) K^T : 'M[R]_n) i j).
  { rewrite mxE. set s := (- _ : 'M[R]_n) i j. have Bs : bd 833 s by rewrite /s mxE; apply: bd_opp; exact: B6. toR. apply: (sum_w 40 833); [exact: HP|exact: Bs|lia|lia]. }
  have [E7 _] := @map_same r 834 n n _ Hr ltac:(lia) BP. by rewrite E5 E6 E7.
Qed.
End U.

Lemma acc_const k c (t : 'I_k -> R) : (forall i, t i = R0) -> rnd64 c = c -> acc_f rnd64 c t = c.
Proof. move=> T C. rewrite /acc_f. elim: (enum 'I_k) => //= i l IH. by rewrite T Rplus_0_r C. Qed.
(** Sigma points at zero with weight one, measurement noise of one. *)
Lemma ukf_update_case : let W : 'cV[R]_1 := 1%:M in let Y : 'M[R]_1 := 0 in let Rk : 'M[R]_1 := 1%:M in
  (exists V, inv1_f rnd64 (scatter_f rnd64 Rk W Y (mean_f rnd64 W Y) Y (mean_f rnd64 W Y)) = Ret V /\ forall i j, Rle (Rabs (V i j)) (bpow radix2 40)) /\
  forall V, inv1_f rnd64 (scatter_f rnd64 Rk W Y (mean_f rnd64 W Y) Y (mean_f rnd64 W Y)) = Ret V -> forall i j, Rle (Rabs (V i j)) (bpow radix2 40).
Proof.
  move=> W Y Rk. have Z0 := rnd64_0. have E1 : rnd64 R1 = R1 by have := @rnd64_bpow 0 ltac:(lia).
  have Y0 i j : Y i j = R0 by rewrite mxE.
  have M0 : forall i j, mean_f rnd64 W Y i j = R0.
  { move=> i j. rewrite mxE. apply: acc_const => // l. by rewrite Y0 Rmult_0_r Z0. }
  have S : scatter_f rnd64 Rk W Y (mean_f rnd64 W Y) Y (mean_f rnd64 W Y) ord0 ord0 = R1.
  { have RI : Rk ord0 ord0 = R1 by rewrite mxE. rewrite mxE RI. apply: acc_const => // l. by rewrite !Y0 M0 Rminus_0_r Z0 Rmult_0_r Z0. }
  have I : inv1_f rnd64 (scatter_f rnd64 Rk W Y (mean_f rnd64 W Y) Y (mean_f rnd64 W Y)) = Ret (const_mx R1).
  { rewrite /inv1_f S /Rdivc. case: (Req_EM_T R1 0) => [H|_ /=]; first by case: R1_neq_R0. have -> : Rdiv 1 R1 = R1 by rewrite /Rdiv Rinv_1 Rmult_1_r. by rewrite E1. }
  have B (i j : 'I_1) : Rle (Rabs ((const_mx R1 : 'M[R]_1) i j)) (bpow radix2 40) by rewrite mxE; apply: (bd_w 0 40); [exact: bd_1|lia].
  rewrite I. split; first by exists (const_mx R1). by move=> V [<-].
Qed.
