(** No overflow in the measurement update of a filter of any size. *)
From Coq Require Import Reals ZArith Lra Lia Psatz.
From Flocq Require Import Core.
From mathcomp Require Import all_ssreflect all_algebra.
From Verif Require Import Base BaseMx ModelDate ModelFilterFloat ModelUpdateFloat SpecOverflow ProofRnd ProofMx ProofOverflow ProofOverflow2 ProofOverflow4.
Set Implicit Arguments.
Unset Strict Implicit.
Unset Printing Implicit Defensive.
Import GRing.Theory.
Local Open Scope ring_scope.
Local Arguments Z.pow : simpl never.

Lemma bd_entry n (i j : 'I_n) : bd 0 ((1%:M : 'M[R]_n) i j).
Proof. rewrite mxE. case: (i == j); [rewrite mulr1n; exact: bd_1|rewrite mulr0n; exact: (bd_0 0)]. Qed.
Lemma map_same r k m n (A : 'M[R]_(m, n)) : binary64_in_range r -> Z.le (Zneg 1000) k /\ Z.le k 1000 -> (forall i j, bd k (A i j)) ->
  map_mx r A = map_mx rnd64 A /\ forall i j, bd k (map_mx rnd64 A i j).
Proof.
  move=> Hr K HA. split.
  - apply/matrixP=> i j. rewrite !mxE. apply: (same r Hr k); [exact: HA|lia].
  - move=> i j. rewrite mxE. apply: bd_rnd; [lia|exact: HA].
Qed.
Section U.
Variables (r : R -> R) (n m : nat) (x : 'cV[R]_n) (P : 'M[R]_n) (z : 'cV[R]_m) (H : 'M[R]_(m, n)) (Rk : 'M[R]_m).
Hypotheses (Hr : binary64_in_range r) (Hn : Z.le (Z.of_nat n) (Z.pow 2 20)) (Hm : Z.le (Z.of_nat m) (Z.pow 2 20)).
Hypotheses (Hx : forall i, bd 60 (x i ord0)) (HP : forall i j, bd 60 (P i j)) (Hz : forall i, bd 60 (z i ord0)) (HH : forall i j, bd 60 (H i j)) (HR : forall i j, bd 60 (Rk i j)).
Definition innov64 : 'M[R]_m := map_mx rnd64 (mul_f (@dot_loop rnd64) (mul_f (@dot_loop rnd64) H P) H^T + Rk).

Lemma innov_same : map_mx r (mul_f (@dot_loop r) (mul_f (@dot_loop r) H P) H^T + Rk) = innov64 /\ forall i j, bd 221 (innov64 i j).
Proof.
  have [E1 B1] := @mul_same r 60 60 m n n H P Hr ltac:(lia) Hn HH HP.
  have [E2 B2] := @mul_same r 140 60 m n m (mul_f (@dot_loop rnd64) H P) H^T Hr ltac:(lia) Hn B1 (fun i j => ltac:(rewrite mxE; exact: HH)).
  rewrite E1 E2. apply: (@map_same r 221 m m _ Hr); [lia|]. move=> i j. rewrite mxE. toR. apply: (sum_w 220 60); [exact: B2|exact: HR|lia|lia].
Qed.
Lemma update_same (inv inv' : 'M[R]_m -> outcome 'M[R]_m) : inv' innov64 = inv innov64 -> (forall V, inv innov64 = Ret V -> forall i j, bd 60 (V i j)) ->
  filterUpdate_f r (@dot_loop r) inv' x P z H Rk = filterUpdate_f rnd64 (@dot_loop rnd64) inv x P z H Rk.
Proof.
  move=> EI HV. rewrite /filterUpdate_f /gain_f. have [ES _] := innov_same. rewrite ES EI -/innov64. case EV : (inv innov64) => [V| | | |] //=.
  have BV := HV V EV.
  have [E1 B1] := @mul_same r 60 60 n n m P H^T Hr ltac:(lia) Hn HP (fun i j => ltac:(rewrite mxE; exact: HH)).
  have [E2 B2] := @mul_same r 140 60 n m m (mul_f (@dot_loop rnd64) P H^T) V Hr ltac:(lia) Hm B1 BV.
  rewrite E1 E2. set K := mul_f _ (mul_f _ P H^T) V in B2 *. clearbody K.
  have [E3 B3] := @mul_same r 60 60 m n 1 H x Hr ltac:(lia) Hn HH (fun i j => ltac:(rewrite (ord1 j); exact: Hx)).
  have BN (i : 'I_m) (j : 'I_1) : bd 141 ((z - mul_f (@dot_loop rnd64) H x : 'cV[R]_m) i j).
  { rewrite !mxE (ord1 j). toR. apply: (sum_w 60 140); [exact: Hz|apply: bd_opp; have := B3 i ord0; by rewrite mxE|lia|lia]. }
  have [E4 B4] := @map_same r 141 m 1 _ Hr ltac:(lia) BN. rewrite E3 E4. set nu := map_mx rnd64 _ in B4 *. clearbody nu.
  have [E5 B5] := @mul_same r 220 141 n m 1 K nu Hr ltac:(lia) Hm B2 B4.
  have BX (i : 'I_n) (j : 'I_1) : bd 382 ((x + mul_f (@dot_loop rnd64) K nu : 'cV[R]_n) i j).
  { rewrite mxE (ord1 j). toR. apply: (sum_w 60 381); [exact: Hx|exact: B5|lia|lia]. }
  have [E6 _] := @map_same r 382 n 1 _ Hr ltac:(lia) BX. rewrite E5 E6.
  have [E7 B7] := @mul_same r 220 60 n m n K H Hr ltac:(lia) Hm B2 HH.
  have BI (i j : 'I_n) : bd 301 ((1%:M - mul_f (@dot_loop rnd64) K H : 'M[R]_n) i j).
  { rewrite mxE. set t := (1%:M : 'M[R]_n) i j. have T : bd 0 t by exact: bd_entry. rewrite mxE. toR. apply: (sum_w 0 300); [exact: T|apply: bd_opp; exact: B7|lia|lia]. }
  have [E8 B8] := @map_same r 301 n n _ Hr ltac:(lia) BI. rewrite E7 E8. set IKH := map_mx rnd64 (1%:M - _) in B8 *. clearbody IKH.
  have [E9 B9] := @mul_same r 301 60 n n n IKH P Hr ltac:(lia) Hn B8 HP.
  have [E10 B10] := @mul_same r 381 301 n n n (mul_f (@dot_loop rnd64) IKH P) IKH^T Hr ltac:(lia) Hn B9 (fun i j => ltac:(rewrite mxE; exact: B8)).
  have [E11 B11] := @mul_same r 220 60 n m m K Rk Hr ltac:(lia) Hm B2 HR.
  have [E12 B12] := @mul_same r 300 220 n m n (mul_f (@dot_loop rnd64) K Rk) K^T Hr ltac:(lia) Hm B11 (fun i j => ltac:(rewrite mxE; exact: B2)).
  rewrite E9 E10 E11 E12.
  have BP (i j : 'I_n) : bd 703 ((mul_f (@dot_loop rnd64) (mul_f (@dot_loop rnd64) IKH P) IKH^T + mul_f (@dot_loop rnd64) (mul_f (@dot_loop rnd64) K Rk) K^T : 'M[R]_n) i j).
  { rewrite mxE. toR. apply: (sum_w 702 540); [exact: B10|exact: B12|lia|lia]. }
  have [E13 _] := @map_same r 703 n n _ Hr ltac:(lia) BP. by rewrite E13.
Qed.
End U.

(** One measurement: the library divides by the innovation variance. *)
Lemma update1_same r n (x : 'cV[R]_n) (P : 'M[R]_n) (z : 'cV[R]_1) (H : 'M[R]_(1, n)) (Rk : 'M[R]_1) : binary64_in_range r -> Z.le (Z.of_nat n) (Z.pow 2 20) ->
  (forall i, bd 60 (x i ord0)) -> (forall i j, bd 60 (P i j)) -> (forall i, bd 60 (z i ord0)) -> (forall i j, bd 60 (H i j)) -> (forall i j, bd 60 (Rk i j)) ->
  Rle (bpow radix2 (-60)) (Rabs (innov64 P H Rk ord0 ord0)) ->
  filterUpdate_f r (@dot_loop r) (inv1_f r) x P z H Rk = filterUpdate_f rnd64 (@dot_loop rnd64) (inv1_f rnd64) x P z H Rk.
Proof.
  move=> Hr Hn Hx HP Hz HH HR L. have D := bd_div _ _ _ _ bd_1 L.
  apply: (update_same Hr) => //.
  - rewrite /inv1_f /Rdivc. case: (Req_EM_T _ _) => //= _. by rewrite (same r Hr _ _ D).
  - move=> V. rewrite /inv1_f /Rdivc. case: (Req_EM_T _ _) => //= _ [<-] i j. rewrite mxE. by apply: (@bd_rnd 60).
Qed.
Lemma loop1 r a b : @dot_loop r 1 a b = r (Rplus R0 (r (Rmult (a ord_max) (b ord_max)))).
Proof. by []. Qed.
Lemma update_case : Rle (bpow radix2 (-60)) (Rabs (innov64 (1%:M : 'M[R]_1) (1%:M : 'M[R]_1) (1%:M : 'M[R]_1) ord0 ord0)).
Proof.
  have I : (1%:M : 'M[R]_1) ord0 ord0 = R1 by rewrite mxE.
  rewrite /innov64 mxE mxE mxE loop1 !mxE loop1 !mxE /=. rewrite !mulr1n. toR.
  have E1 : rnd64 R1 = R1 by have := @rnd64_bpow 0 ltac:(lia).
  rewrite !(Rmult_1_r, Rplus_0_l, E1). have -> : Rplus R1 R1 = bpow radix2 1 by rewrite /=; lra. 
  rewrite rnd64_bpow; last lia. rewrite Rabs_pos_eq; last exact: bpow_ge_0. exact: (bpow_le radix2 (Zneg 60) 1 ltac:(lia)).
Qed.
