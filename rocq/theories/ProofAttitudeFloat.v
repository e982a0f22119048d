(** Rounding errors of the quaternion to matrix conversion, relative to the
    squared length of the quaternion. *)
From Coq Require Import Reals ZArith List Lra Lia Psatz.
From Flocq Require Import Core.
From Verif Require Import Base BaseVec SpecRot ModelAttitude ModelDate ModelStrapdownFloat ModelFramesFloat ModelAttitudeFloat SpecFloatOps
  ProofVec ProofAttitude ProofStrapdownFloat ProofStrapdownFloat2 ProofFramesFloat ProofGravityFloat.
Import ListNotations.
Open Scope R_scope.

Section Dcm.
Variable F : FloatOps.
Hypothesis HF : float_ok F.
Variables q0 q1 q2 q3 : R.
Let N := n2 q0 q1 q2 q3.
Hypothesis HN : bpow radix2 (-900) <= N.

Definition sp (x y k M : R) : Prop := Rabs (x - y) <= k * u64 * N /\ Rabs y <= M * N.
Lemma N_pos : 0 < N. Proof. pose proof (bpow_gt_0 radix2 (-900)). lra. Qed.
Lemma eta_N : eta64 <= e20 * u64 * N.
Proof.
  unfold eta64, u64, e20. apply Rle_trans with (bpow radix2 (-70) * bpow radix2 (-53) * bpow radix2 (-900)).
  - rewrite <- !bpow_plus. apply bpow_le. lia.
  - apply Rmult_le_compat; auto using bpow_ge_0. { apply Rmult_le_pos; apply bpow_ge_0. } apply Rmult_le_compat_r; [apply bpow_ge_0|]. cbn. lra.
Qed.
Lemma sp_pos x y k M : sp x y k M -> 0 <= k /\ 0 <= M.
Proof.
  intros (A & B). pose proof u64_bounds. pose proof N_pos as NP. pose proof (Rabs_pos (x - y)). pose proof (Rabs_pos y).
  assert (0 < u64 * N) by (apply Rmult_lt_0_compat; lra). split; [|nra]. rewrite Rmult_assoc in A. nra.
Qed.
Lemma sp_le x y k M k' M' : sp x y k M -> k <= k' -> M <= M' -> sp x y k' M'.
Proof.
  intros (A & B) K L. pose proof u64_bounds. pose proof N_pos. assert (0 < u64 * N) by (apply Rmult_lt_0_compat; lra). split.
  - rewrite Rmult_assoc in *. nra.
  - nra.
Qed.
Lemma sp_rnd x y k M : sp x y k M -> sp (frnd F x) y (k * (1 + e15) + M + e20) M.
Proof.
  intros H. destruct (sp_pos _ _ _ _ H) as (P1 & P2). destruct H as (A & B). split; [|auto].
  pose proof (rnd_le F HF x) as R. pose proof (abs_tri _ _ _ _ _ R A) as T. eapply Rle_trans; [exact T|].
  pose proof u64_bounds as U. pose proof eta_N. pose proof N_pos as NP.
  assert (X : Rabs x <= (M + k * e15) * N).
  { pose proof (Rabs_triang (x - y) y) as Q. replace (x - y + y) with x in Q by ring.
    assert (k * u64 * N <= k * e15 * N) by (apply Rmult_le_compat_r; [lra|]; apply Rmult_le_compat_l; [lra|unfold e15; lra]). lra. }
  assert (u64 * Rabs x <= u64 * ((M + k * e15) * N)) by (apply Rmult_le_compat_l; lra). lra.
Qed.
Lemma sp_exact y M : Rabs y <= M * N -> sp y y 0 M.
Proof. intros. split; [rewrite Rminus_eq_0, Rabs_R0; lra|auto]. Qed.
Lemma sp_add x y k M x' y' k' M' M'' : sp x y k M -> sp x' y' k' M' -> Rabs (y + y') <= M'' * N -> sp (x + x') (y + y') (k + k') M''.
Proof.
  intros (H1 & H2) (H3 & H4) Q. split; [|exact Q].
  replace (x + x' - (y + y')) with ((x - y) + (x' - y')) by ring. pose proof (Rabs_triang (x - y) (x' - y')). lra.
Qed.
Lemma sp_sub x y k M x' y' k' M' M'' : sp x y k M -> sp x' y' k' M' -> Rabs (y - y') <= M'' * N -> sp (x - x') (y - y') (k + k') M''.
Proof.
  intros (H1 & H2) (H3 & H4) Q. split; [|exact Q].
  replace (x - x' - (y - y')) with ((x - y) - (x' - y')) by ring. unfold Rminus at 1. pose proof (Rabs_triang (x - y) (- (x' - y'))) as T. rewrite Rabs_Ropp in T. lra.
Qed.
Lemma sp_two x y k M : sp x y k M -> sp (2 * x) (2 * y) (2 * k) (2 * M).
Proof. intros (A & B). split; [replace (2 * x - 2 * y) with (2 * (x - y)) by ring|]; rewrite Rabs_mult, (Rabs_right 2) by lra; lra. Qed.
(** The quotient of two such numbers, the divisor being N itself. *)
Lemma sp_div x y k x' k' : sp x y k 1 -> sp x' N k' 1 -> k <= 1000 -> k' <= 1000 ->
  x' <> 0 /\ ap (frnd F (x / x')) (y / N) (k + k' + 1 + 1 / 1000) 1.
Proof.
  intros A B K K'. destruct (sp_pos _ _ _ _ A) as (P1 & _). destruct (sp_pos _ _ _ _ B) as (P2 & _). pose proof N_pos as NP. pose proof u64_bounds as U.
  assert (H1 : ap (x / N) (y / N) k 1).
  { destruct A as (A1 & A2). split.
    - replace (x / N - y / N) with ((x - y) * / N) by (field; lra). rewrite Rabs_mult, (Rabs_right (/ N)) by (apply Rle_ge, Rlt_le, Rinv_0_lt_compat; auto).
      apply Rmult_le_reg_r with N; auto. rewrite Rmult_assoc, Rinv_l by lra. lra.
    - unfold Rdiv. rewrite Rabs_mult, (Rabs_right (/ N)) by (apply Rle_ge, Rlt_le, Rinv_0_lt_compat; auto).
      apply Rmult_le_reg_r with N; auto. rewrite Rmult_assoc, Rinv_l by lra. lra. }
  assert (H2 : ap (x' / N) 1 k' 1).
  { destruct B as (A1 & A2). split; [|rewrite Rabs_R1; lra].
    replace (x' / N - 1) with ((x' - N) * / N) by (field; lra). rewrite Rabs_mult, (Rabs_right (/ N)) by (apply Rle_ge, Rlt_le, Rinv_0_lt_compat; auto).
    apply Rmult_le_reg_r with N; auto. rewrite Rmult_assoc, Rinv_l by lra. lra. }
  assert (KU : k' * u64 <= 1 / 1000000000) by (apply Rle_trans with (1000 * (1 / 1000000000000000)); [apply Rmult_le_compat; lra|lra]).
  assert (X : 1 - 1 / 1000000000 <= x' / N) by (destruct H2 as (Q & _); apply Rabs_le_inv in Q; lra).
  assert (X0 : x' <> 0) by (intros ->; unfold Rdiv in X; rewrite Rmult_0_l in X; lra).
  split; [exact X0|].
  assert (D : ap (x / x') (y / N) (k + k' + 1 / 10000) 1).
  { destruct H1 as (B1 & B2), H2 as (B3 & _). split; [|exact B2].
    set (a := x / N) in *. set (b := x' / N) in *. set (c := y / N) in *. replace (x / x') with (a / b) by (unfold a, b; field; split; lra).
    replace (a / b - c) with (((a - c) - c * (b - 1)) * / b) by (field; lra). rewrite Rabs_mult, (Rabs_right (/ b)) by (apply Rle_ge, Rlt_le, Rinv_0_lt_compat; lra).
    apply Rmult_le_reg_r with b; [lra|]. rewrite Rmult_assoc, Rinv_l, Rmult_1_r by lra.
    assert (T : Rabs (a - c - c * (b - 1)) <= (k + k') * u64).
    { unfold Rminus at 1. eapply Rle_trans; [apply Rabs_triang|]. rewrite Rabs_Ropp, Rabs_mult.
      assert (Rabs c * Rabs (b - 1) <= 1 * (k' * u64)) by (apply Rmult_le_compat; auto using Rabs_pos). lra. }
    eapply Rle_trans; [exact T|].
    assert (Y : (k + k') <= (k + k' + 1 / 10000) * b) by nra. replace ((k + k' + 1 / 10000) * u64 * b) with ((k + k' + 1 / 10000) * b * u64) by ring. apply Rmult_le_compat_r; lra. }
  eapply ap_le; [apply (ap_rnd F HF); exact D| |lra]. unfold e15, e20. lra.
Qed.

Lemma sq_nn x : 0 <= x * x. Proof. apply Rle_0_sqr. Qed.
Ltac nn := unfold N, n2; pose proof (sq_nn q0); pose proof (sq_nn q1); pose proof (sq_nn q2); pose proof (sq_nn q3).
Lemma prod_le x y : Rabs (x * y) <= (x * x + y * y) / 2.
Proof. pose proof (sq_nn (x - y)). pose proof (sq_nn (x + y)). apply Rabs_le. lra. Qed.
Ltac pr := apply Rabs_le; nn;
  pose proof (Rabs_le_inv _ _ (prod_le q0 q1)); pose proof (Rabs_le_inv _ _ (prod_le q0 q2)); pose proof (Rabs_le_inv _ _ (prod_le q0 q3));
  pose proof (Rabs_le_inv _ _ (prod_le q1 q2)); pose proof (Rabs_le_inv _ _ (prod_le q1 q3)); pose proof (Rabs_le_inv _ _ (prod_le q2 q3)); lra.
(** Products: the bound [M] of a product of components is kept symbolic through
    the absolute value of the product itself. *)
Definition w (x : R) : R := Rabs x / N.
Lemma w_ok x : Rabs x = w x * N. Proof. unfold w. field. pose proof N_pos. lra. Qed.
Lemma sp_prod x : sp (frnd F x) x (w x + e20) (w x).
Proof. eapply sp_le; [apply sp_rnd, (sp_exact _ (w x)); rewrite w_ok; lra| |]; lra. Qed.
Lemma w_sum : w (q0 * q0) + w (q1 * q1) + w (q2 * q2) + w (q3 * q3) = 1.
Proof. unfold w. nn. rewrite !Rabs_right by lra. field. pose proof N_pos. unfold N, n2 in *. lra. Qed.
Lemma w_pos x : 0 <= w x. Proof. unfold w. apply Rmult_le_pos; [apply Rabs_pos|]. apply Rlt_le, Rinv_0_lt_compat, N_pos. Qed.
Lemma w_half a b c d : (a * a + b * b + c * c + d * d = N) -> w (a * b) + w (c * d) <= 1 / 2.
Proof.
  intros E. unfold w. pose proof (prod_le a b). pose proof (prod_le c d). pose proof N_pos as NP. apply Rmult_le_reg_r with N; auto.
  replace ((Rabs (a * b) / N + Rabs (c * d) / N) * N) with (Rabs (a * b) + Rabs (c * d)) by (field; lra). lra.
Qed.
Lemma den_sp : sp (frnd F (frnd F (frnd F (frnd F (q0 * q0) + frnd F (q1 * q1)) + frnd F (q2 * q2)) + frnd F (q3 * q3))) N (41 / 10) 1.
Proof.
  pose proof w_sum. pose proof (w_pos (q0 * q0)). pose proof (w_pos (q1 * q1)). pose proof (w_pos (q2 * q2)). pose proof (w_pos (q3 * q3)).
  eapply sp_le; [apply sp_rnd; change N with (q0 * q0 + q1 * q1 + q2 * q2 + q3 * q3); eapply sp_add with (M'' := 1); [apply sp_rnd; eapply sp_add with (M'' := 1); [apply sp_rnd; eapply sp_add with (M'' := 1); [apply sp_prod|apply sp_prod|pr]|apply sp_prod|pr]|apply sp_prod|pr]| |lra].
  unfold e15, e20. lra.
Qed.
Ltac st M := lazymatch goal with |- sp (_ + _) _ _ _ => eapply sp_add with (M'' := M) | |- sp (_ - _) _ _ _ => eapply sp_sub with (M'' := M) end.
Ltac dg := pose proof w_sum; pose proof (w_pos (q0 * q0)); pose proof (w_pos (q1 * q1)); pose proof (w_pos (q2 * q2)); pose proof (w_pos (q3 * q3));
  eapply sp_le; [apply sp_rnd; st 1; [apply sp_rnd; st 1; [apply sp_rnd; st 1; [apply sp_prod|apply sp_prod|pr]|apply sp_prod|pr]|apply sp_prod|pr]| |lra];
  unfold e15, e20; lra.
Lemma d11 : sp (frnd F (frnd F (frnd F (frnd F (q0 * q0) + frnd F (q1 * q1)) - frnd F (q2 * q2)) - frnd F (q3 * q3))) (q0 * q0 + q1 * q1 - q2 * q2 - q3 * q3) (41 / 10) 1.
Proof. dg. Qed.
Lemma d22 : sp (frnd F (frnd F (frnd F (frnd F (q0 * q0) - frnd F (q1 * q1)) + frnd F (q2 * q2)) - frnd F (q3 * q3))) (q0 * q0 - q1 * q1 + q2 * q2 - q3 * q3) (41 / 10) 1.
Proof. dg. Qed.
Lemma d33 : sp (frnd F (frnd F (frnd F (frnd F (q0 * q0) - frnd F (q1 * q1)) - frnd F (q2 * q2)) + frnd F (q3 * q3))) (q0 * q0 - q1 * q1 - q2 * q2 + q3 * q3) (41 / 10) 1.
Proof. dg. Qed.
Lemma od_add a b c d : a * a + b * b + c * c + d * d = N ->
  sp (frnd F (2 * frnd F (frnd F (a * b) + frnd F (c * d)))) (2 * (a * b + c * d)) (41 / 10) 1.
Proof.
  intros E. pose proof (w_half a b c d E). pose proof (w_pos (a * b)). pose proof (w_pos (c * d)).
  assert (Rabs (a * b + c * d) <= 1 / 2 * N).
  { pose proof (Rabs_triang (a * b) (c * d)). pose proof (prod_le a b). pose proof (prod_le c d). lra. }
  eapply sp_le; [apply sp_rnd, sp_two, sp_rnd; eapply sp_add with (M'' := 1 / 2); [apply sp_prod|apply sp_prod|auto]| |lra]. unfold e15, e20. lra.
Qed.
Lemma od_sub a b c d : a * a + b * b + c * c + d * d = N ->
  sp (frnd F (2 * frnd F (frnd F (a * b) - frnd F (c * d)))) (2 * (a * b - c * d)) (41 / 10) 1.
Proof.
  intros E. pose proof (w_half a b c d E). pose proof (w_pos (a * b)). pose proof (w_pos (c * d)).
  assert (Rabs (a * b - c * d) <= 1 / 2 * N).
  { unfold Rminus. pose proof (Rabs_triang (a * b) (- (c * d))) as T. rewrite Rabs_Ropp in T. pose proof (prod_le a b). pose proof (prod_le c d). lra. }
  eapply sp_le; [apply sp_rnd, sp_two, sp_rnd; eapply sp_sub with (M'' := 1 / 2); [apply sp_prod|apply sp_prod|auto]| |lra]. unfold e15, e20. lra.
Qed.

Lemma dcm_float : exists A, dcm_entries_f F q0 q1 q2 q3 = Ret A /\
  forall i j, (i < 3)%nat -> (j < 3)%nat -> Rabs (mx_at (MX_of_mat3 A) i j - mx_at (MX_of_mat3 (dcm q0 q1 q2 q3)) i j) <= 10 * u64.
Proof.
  pose proof den_sp as D. pose proof N_pos as NP. unfold dcm_entries_f. cbv zeta.
  assert (D0 := proj1 (sp_div _ _ _ _ _ d11 D ltac:(lra) ltac:(lra))).
  rewrite !Rdivc_ok by exact D0. cbn [bind]. eexists. split; [reflexivity|].
  assert (Q : forall x y, sp x y (41 / 10) 1 -> Rabs (frnd F (x / frnd F (frnd F (frnd F (frnd F (q0 * q0) + frnd F (q1 * q1)) + frnd F (q2 * q2)) + frnd F (q3 * q3))) - y / N) <= 10 * u64).
  { intros x y H. pose proof (proj2 (sp_div _ _ _ _ _ H D ltac:(lra) ltac:(lra))) as (E & _). pose proof u64_bounds. eapply Rle_trans; [exact E|]. apply Rmult_le_compat_r; lra. }
  intros i j Hi Hj. destruct i as [|[|[|i]]]; try lia; destruct j as [|[|[|j]]]; try lia; cbn -[Rabs Rmult Rplus Rminus Rdiv u64 n2 N]; fold N; apply Q;
  first [exact d11|exact d22|exact d33|apply od_add; unfold N, n2; ring|apply od_sub; unfold N, n2; ring].
Qed.
End Dcm.
