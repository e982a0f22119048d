(** No overflow in a run of integrate calls. *)
From Coq Require Import Reals ZArith List Lra Lia Psatz.
From Flocq Require Import Core IEEE754.Binary IEEE754.Bits.
From Verif Require Import Base BaseVec SpecRot SpecConverge SpecRunFloat SpecFloatOps SpecOverflow ModelNavUtils ModelStrapdown ModelDate ModelGravity ModelStrapdownFloat ModelFramesFloat ModelGravityFloat
  ModelNavFloat ProofDate ProofVec ProofAttitude ProofStrapdown2 ProofStrapdownFloat ProofStrapdownFloat2 ProofFramesFloat ProofGravityFloat ProofNavFloat2 ProofRunFloat ProofRnd ProofPi
  ProofOverflow ProofOverflow2 ProofOverflow3 ProofOverflow9 ProofOverflow10.
Import ListNotations.
Open Scope R_scope.

Lemma near_mbd e A R0 : is_rotation R0 -> close_to e A (mvmul R0) -> e <= 1 -> mbd 10 A.
Proof. intros HR HC He. apply (close_mbd e A (mvmul R0)); auto. intros v. now apply norm_rotated. Qed.
Lemma dt_same r d : binary64_in_range r -> (1 <= d <= 1000000)%Z -> r (r (IZR d) / 1000000) = rnd64 (rnd64 (IZR d) / 1000000).
Proof.
  intros Hr (D1 & D2). apply IZR_le in D1, D2. assert (B : bd 20 (IZR d)) by (unfold bd; rewrite Rabs_pos_eq by lra; change (bpow radix2 20) with 1048576; lra).
  rewrite (same r Hr _ _ B) by lia. apply (bd_rnd 20) in B; [|lia].
  assert (L : bpow radix2 19 <= Rabs 1000000) by (rewrite Rabs_pos_eq by lra; change (bpow radix2 19) with 524288; lra).
  apply (same r Hr (20 - 19)); [now apply bd_div|lia].
Qed.
Lemma quot_bd x y d t t' : 1 / 1000000 <= t <= 1 -> Rabs (t' - t) <= t / 1000 -> 0 <= d <= 98 * t -> Rabs y <= 102 / 100 * d -> Rabs (x - y) <= t / 1000 -> bd 7 (x / t').
Proof.
  intros T T' D Y X. apply Rabs_le_inv in T'. apply bd_quot; [lra|]. change (bpow radix2 7) with 128.
  apply Rabs_le_inv in Y. apply Rabs_le_inv in X. apply Rabs_le. lra.
Qed.
Lemma call_same r A R0 e y dV dTh t t0 : binary64_in_range r -> is_rotation R0 -> close_to e A (mvmul R0) -> 0 <= e <= 1 / 100 -> place_ok y ->
  (1 <= t - t0 <= 1000000)%Z -> norm dV <= 98 * lapse t0 t -> bpow radix2 (-480) <= norm dTh <= 4 ->
  integrate_f (ops_of r) (pow2_of r) (pow15_of r) dV dTh t A (fst y) (snd y) t0 =
  integrate_f binary64_ops (pow2_of rnd64) (pow15_of rnd64) dV dTh t A (fst y) (snd y) t0 /\
  exists A' z R1, integrate_f binary64_ops (pow2_of rnd64) (pow15_of rnd64) dV dTh t A (fst y) (snd y) t0 = Ret (true, (A', z)) /\
    is_rotation R1 /\ close_to (e + 2100 * u64) A' (mvmul R1).
Proof.
  intros Hr HR HC He (L1 & L2 & L3 & L4 & L5 & L6) T NV NT. pose proof u64_val as UV. pose proof u64_bounds as (U0 & _).
  pose proof binary64_ok as HF. pose proof pow2_64_ok as HP.
  destruct (att2 binary64_ops A R0 e dTh HF HR HC He NT) as (A' & B & R1 & EA' & EB & HR1 & C & C2 & C3).
  assert (NB : forall v, norm (mvmul B v) <= 102 / 100 * norm v).
  { intros v. pose proof (near_le e B R1 HR1 C2 v). pose proof (norm_nonneg v). nra. }
  destruct (dt_bound binary64_ops (t - t0)%Z HF T) as (T1 & T2). cbv zeta in T1, T2.
  destruct (dv_bound2 binary64_ops A' B dV HF NB C) as (S & V1 & V2 & V3'). cbv zeta in V1, V2, V3'.
  destruct S as (S1 & S2 & S3). pose proof (norm_nonneg dV) as N0.
  destruct (gravity_float binary64_ops pow2_64 (vx (fst y)) (vz (fst y)) HF HP) as (g & g' & EG & EG' & G1 & G2 & G3 & G4).
  { pose proof PI_bounds. lra. } { lra. }
  destruct (grav_bound _ _ g L3 EG) as (GB1 & _ & GB3).
  assert (OV : (orb (Z.ltb (t - t0) int64_min) (Z.ltb int64_max (t - t0))) = false).
  { apply Bool.orb_false_iff. split; apply Z.ltb_ge; unfold int64_min, int64_max; lia. }
  pose proof (dt_same r (t - t0)%Z Hr T) as ET. pose proof (step_same r A dTh Hr (near_mbd e A R0 HR HC ltac:(lra)) NT) as ES.
  assert (EGr : gravityNed_f (ops_of r) (pow2_of r) (vx (fst y)) (vz (fst y)) = Ret (true, g')).
  { rewrite gravity_same; [exact EG'|exact Hr|..].
    - apply (bd_w 1); [|lia]. unfold bd. change (bpow radix2 1) with 2. lra.
    - apply (bd_w 20); [|lia]. unfold bd. change (bpow radix2 20) with 1048576. lra. }
  unfold lapse in *. change (frnd binary64_ops) with rnd64 in *.
  set (dt := IZR (t - t0) / 1000000) in *. set (dt' := rnd64 (rnd64 (IZR (t - t0)) / 1000000)) in *.
  assert (MA : mbd 10 A') by (apply (near_mbd _ _ _ HR1 C3); rewrite UV; lra). destruct MA as (M1 & M2 & M3').
  assert (BV : vbd 7 dV) by (destruct (comp_le dV) as (? & ? & ?); unfold vbd, bd; change (bpow radix2 7) with 128; repeat split; lra).
  destruct (dot_same r _ _ _ _ Hr M1 BV ltac:(lia)) as (X1 & _). destruct (dot_same r _ _ _ _ Hr M2 BV ltac:(lia)) as (X2 & _).
  destruct (dot_same r _ _ _ _ Hr M3' BV ltac:(lia)) as (X3 & _).
  set (dVN := V3 (fdot binary64_ops (row1 A') dV) (fdot binary64_ops (row2 A') dV) (fdot binary64_ops (row3 A') dV)) in *.
  pose proof eta_e20 as E20. unfold e20 in E20.
  assert (W : 2113 * u64 * norm dV + 8 * eta64 <= dt / 1000) by (rewrite UV; lra).
  assert (T3 : Rabs (dt' - dt) <= dt / 1000) by (eapply Rle_trans; [exact T2|rewrite UV; lra]).
  assert (D1 : 1 / 2000000 <= dt' <= 1).
  { apply Rabs_le_inv in T3. split; [lra|]. unfold dt'. replace 1 with (IZR 1 * bpow radix2 0) by (cbn; lra). apply rnd_up; try lia.
    assert (RX : rnd64 (IZR (t - t0)) = IZR (t - t0)).
    { pose proof (rnd64_exact (t - t0) 0 ltac:(lia) ltac:(lia)) as Q. change (bpow radix2 0) with 1 in Q. rewrite Rmult_1_r in Q. exact Q. }
    destruct T as (T4 & T5). apply IZR_le in T4, T5. rewrite RX. change (bpow radix2 0) with 1. lra. }
  assert (AC : acc_ok dVN g' dt').
  { split; [split; [|exact (proj2 D1)]|].
    - pose proof (bpow_le radix2 (-200) (-30) ltac:(lia)) as Q. change (bpow radix2 (-30)) with (/ 1073741824) in Q. lra.
    - apply Rabs_le_inv in G1. apply Rabs_le_inv in G4. apply Rabs_le_inv in GB1. apply Rabs_le_inv in GB3.
      split; [|split; [|split]]; [apply (quot_bd _ (vx (mvmul B dV)) (norm dV) dt)|apply (quot_bd _ (vy (mvmul B dV)) (norm dV) dt)|apply (quot_bd _ (vz (mvmul B dV)) (norm dV) dt)|]; auto; try lra.
      unfold vbd, bd. change (bpow radix2 7) with 128. rewrite G2, Rabs_R0. repeat split; try lra; apply Rabs_le; lra. }
  assert (SO : start_ok (fst y, snd y)).
  { unfold start_ok, vbd, bd. cbn [fst snd]. pose proof (bpow_le radix2 3 100 ltac:(lia)) as Q. change (bpow radix2 3) with 8 in Q.
    change (bpow radix2 19) with 524288. change (bpow radix2 12) with 4096. repeat split; lra. }
  destruct (rk4_same r _ dVN g' dt' Hr SO AC) as (ER & z & EZ & _).
  assert (E2 : integrate_f binary64_ops (pow2_of rnd64) (pow15_of rnd64) dV dTh t A (fst y) (snd y) t0 = Ret (true, (A', z))).
  { unfold integrate_f. cbv zeta. rewrite OV, EA'. cbn [bind negb]. change (pow2_of rnd64) with pow2_64 at 1. rewrite EG'. cbn [bind negb].
    change (frnd binary64_ops) with rnd64. fold dVN dt'. rewrite EZ. reflexivity. }
  split.
  - rewrite E2. unfold integrate_f. cbv zeta. rewrite OV, ES, EA'. cbn [bind negb]. rewrite EGr. cbn [bind negb].
    change (frnd (ops_of r)) with r. rewrite X1, X2, X3, ET. fold dVN. rewrite ER, EZ. reflexivity.
  - exists A', z, R1. auto.
Qed.
Lemma run_same r : binary64_in_range r -> forall l A R0 e y t0, is_rotation R0 -> close_to e A (mvmul R0) -> 0 <= e -> inputs_ok t0 l ->
  e + 2100 * u64 * INR (length l) <= 1 / 100 -> stays binary64_ops (pow2_of rnd64) (pow15_of rnd64) (A, y) t0 l ->
  nav_run_f (ops_of r) (pow2_of r) (pow15_of r) (A, y) t0 l = nav_run_f binary64_ops (pow2_of rnd64) (pow15_of rnd64) (A, y) t0 l /\
  exists z, nav_run_f binary64_ops (pow2_of rnd64) (pow15_of rnd64) (A, y) t0 l = Ret (true, z).
Proof.
  intros Hr. induction l as [|[[dV dTh] t] l IH]; intros A R0 e y t0 HR HC He HI HN HS; cbn [nav_run_f]; [split; [reflexivity|eauto]|].
  destruct HI as (I1 & I2 & I3 & I4). cbn [length] in HN. rewrite S_INR in HN. pose proof u64_bounds as (U0 & _). pose proof (pos_INR (length l)).
  assert (0 <= u64 * INR (length l)) by nra. destruct HS as (P & HS). cbn [fst snd] in *.
  destruct (call_same r A R0 e y dV dTh t t0 Hr HR HC ltac:(lra) P I1 I2 I3) as (E & A' & z & R1 & E2 & HR1 & C1).
  rewrite E, E2. cbn [bind fst snd]. apply (IH A' R1 (e + 2100 * u64)); auto; lra.
Qed.
