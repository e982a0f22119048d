(** Theorems C145: the filter with one state over histories of any length, in
    double arithmetic. *)
From Coq Require Import Reals ZArith List Lra Lia Psatz.
From Flocq Require Import Core.
From Verif Require Import Base ModelDate ModelKalmanFloat SpecFloatOps SpecKalmanFloat SpecDisturbFloat ProofStrapdownFloat ProofDisturbFloat PropKalmanFloat.
Import ListNotations.
Open Scope R_scope.

(** C145: if every prediction adds at least d times the variance it carries
    over, with at most m measurements in between, no computed variance is ever
    off by more than 16 (m+1) (1 + 1/d) units of 2^-53. *)
Theorem C145_any_length : forall d m x P l, 0 < d -> 16 * u64 * (INR m + 1) * (1 + / d) <= 1 / 2 -> calm P l -> fed d P l -> spaced1 m m l ->
  exists out, run1_f rnd64 x P l = Ret out /\ length out = length l /\
    forall k, (k < length l)%nat ->
      Rabs (snd (nth k out (0, 0)) - variance P (firstn (S k) l)) <= 16 * u64 * (INR m + 1) * (1 + / d) * variance P (firstn (S k) l).
Proof. exact forever_float. Qed.
Print Assumptions C145_any_length.

(** Any number of cycles of a unit measurement and process noise 1/2, from
    variance 1: after each cycle the true variance is 1 again, and the computed
    one is off by at most 64 units. *)
Fixpoint ticks (zs : list R) : list step1 :=
  match zs with [] => [] | z :: zs' => Update1 z 1 1 :: Predict1 1 (1 / 2) :: ticks zs' end.
Lemma ticks_calm zs : calm 1 (ticks zs) /\ fed 1 1 (ticks zs) /\ spaced1 1 1 (ticks zs) /\ variance 1 (ticks zs) = 1.
Proof.
  assert (L : bpow radix2 (-49) <= 1 / 4) by (replace (1 / 4) with (bpow radix2 (-2)) by (cbn; lra); apply bpow_le; lia).
  assert (U : 4 <= bpow radix2 45) by (change 4 with (bpow radix2 2); apply bpow_le; lia).
  assert (U' : bpow radix2 45 <= bpow radix2 49) by (apply bpow_le; lia).
  assert (M1 : midrange 1) by (apply mid_one; lra). assert (M2 : midrange (1 / 2)) by (apply mid_one; lra).
  induction zs as [|z zs (I1 & I2 & I3 & I4)]; cbn [ticks calm fed spaced1 variance fold_left step_ok variance_step]; [repeat split; lra|].
  replace (/ (/ 1 + 1 * 1 / 1)) with (1 / 2) by field. replace (1 * 1 * (1 / 2) + 1 / 2) with 1 by field.
  repeat split; auto; try lra; try apply M1; try apply M2. right. split; [lra|auto].
Qed.
Example C145_case x z zs : exists out, run1_f rnd64 x 1 (ticks (z :: zs)) = Ret out /\ length out = length (ticks (z :: zs)) /\
  Rabs (snd (nth (length out - 1) out (0, 0)) - 1) <= 64 * u64.
Proof.
  destruct (ticks_calm (z :: zs)) as (I1 & I2 & I3 & I4). pose proof u64_bounds as U.
  destruct (C145_any_length 1 1 x 1 (ticks (z :: zs)) ltac:(lra) ltac:(cbn [INR]; lra) I1 I2 I3) as (out & E & L & B).
  exists out. split; [exact E|]. split; [exact L|]. set (n := length (ticks (z :: zs))) in *. assert (0 < n)%nat by (unfold n; cbn; lia).
  specialize (B (n - 1)%nat ltac:(lia)). rewrite L. replace (S (n - 1)) with n in B by lia. unfold n in B at 2 3. rewrite firstn_all, I4 in B.
  eapply Rle_trans; [exact B|]. cbn [INR]. lra.
Qed.
