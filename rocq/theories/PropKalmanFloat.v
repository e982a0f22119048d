(** Theorems C116: the filter with one state, in double arithmetic. *)
From Coq Require Import Reals ZArith List Lra Lia Psatz.
From Flocq Require Import Core.
From Verif Require Import Base BaseMx ModelEigen ModelKalman ModelDate ModelKalmanFloat SpecFloatOps SpecKalmanFloat ProofKalmanFloat ProofKalmanFloat2.
Import ListNotations.
Open Scope R_scope.

(** C116: a measurement update never reports less than the true variance, up to
    6 units of 2^-53, and reports more by at most 6 units plus 64 squared units
    of the variance before. *)
Theorem C116_update : forall x P z H Rk, 0 < P -> midrange P -> midrange H -> 0 < Rk -> midrange Rk ->
  exists x' P', filterUpdate1_f rnd64 x P z H Rk = Ret (x', P') /\
    let V := / (/ P + H * H / Rk) in (1 - 6 * u64) * V <= P' <= (1 + 6 * u64) * (V + 64 * u64 * u64 * P).
Proof. exact update_float. Qed.
Print Assumptions C116_update.
Theorem C116_predict : forall x P phi Q, 0 < P -> midrange P -> midrange phi -> (Q = 0 \/ 0 < Q /\ midrange Q) ->
  (1 - 4 * u64) * (phi * phi * P + Q) <= snd (filterPredict1_f rnd64 x P phi Q) <= (1 + 4 * u64) * (phi * phi * P + Q).
Proof. exact predict_float. Qed.
Print Assumptions C116_predict.
(** Over any history of up to 2^49 calls no computed variance is off by more
    than 8 units for each call before it. *)
Theorem C116_history : forall x P l, calm P l -> INR (length l) <= bpow radix2 49 ->
  exists out, run1_f rnd64 x P l = Ret out /\ length out = length l /\
    forall k, (k < length l)%nat ->
      (1 - 8 * u64) ^ S k * variance P (firstn (S k) l) <= snd (nth k out (0, 0)) <= (1 + 8 * u64) ^ S k * variance P (firstn (S k) l).
Proof. exact history_float. Qed.
Print Assumptions C116_history.
(** Without rounding this is the general model of the filter at size 1. *)
Theorem C116_exact_arithmetic : forall x P z H Rk x1 P1 phi Q,
  filterPredict (v1 x) (m1 P) (m1 phi) (m1 Q) (v1 x1) (m1 P1) =
    Ret (true, (v1 (fst (filterPredict1_f (fun a => a) x P phi Q)), m1 (snd (filterPredict1_f (fun a => a) x P phi Q)))) /\
  filterUpdate (v1 x) (m1 P) (v1 z) (m1 H) (m1 Rk) (v1 x1) (m1 P1) =
    bind (filterUpdate1_f (fun a => a) x P z H Rk) (fun y => Ret (true, (v1 (fst y), m1 (snd y)))).
Proof. exact (fun x P z H Rk x1 P1 phi Q => conj (predict1 x P phi Q x1 P1) (update1 x P z H Rk x1 P1)). Qed.
Print Assumptions C116_exact_arithmetic.

Lemma mid_one x : 1 / 4 <= x <= 4 -> midrange x.
Proof.
  intros H. unfold midrange. rewrite Rabs_right by lra. assert (bpow radix2 (-50) <= / 4) by (change (/ 4) with (bpow radix2 (-2)); apply bpow_le; lia).
  assert (4 <= bpow radix2 50) by (change 4 with (bpow radix2 2); apply bpow_le; lia). lra.
Qed.
(** Three calls: a measurement, a prediction that adds noise, a measurement. *)
Definition three : list step1 := [Update1 (-3) 1 1; Predict1 1 1; Update1 5 (-2) 2].
Example C116_case : calm 1 three /\ INR (length three) <= bpow radix2 49 /\
  variance 1 (firstn 1 three) = 1 / 2 /\ variance 1 (firstn 2 three) = 3 / 2 /\ variance 1 (firstn 3 three) = 3 / 8.
Proof.
  assert (L : bpow radix2 (-49) <= 1 / 4) by (replace (1 / 4) with (bpow radix2 (-2)) by (cbn; lra); apply bpow_le; lia).
  assert (U : 4 <= bpow radix2 45) by (change 4 with (bpow radix2 2); apply bpow_le; lia).
  assert (U' : bpow radix2 45 <= bpow radix2 49) by (apply bpow_le; lia).
  assert (M1 : midrange 1) by (apply mid_one; lra). assert (M2 : midrange 2) by (apply mid_one; lra).
  assert (Mm : midrange (-2)) by (unfold midrange in *; rewrite Rabs_left by lra; rewrite Rabs_right in M2 by lra; lra).
  cbn [calm three step_ok variance_step length firstn variance fold_left].
  replace (/ (/ 1 + 1 * 1 / 1)) with (1 / 2) by field. replace (1 * 1 * (1 / 2) + 1) with (3 / 2) by field.
  replace (/ (/ (3 / 2) + -2 * -2 / 2)) with (3 / 8) by field.
  cbn [INR]. repeat split; try lra; auto; try (right; split; [lra|auto]); first [apply M1|apply M2|apply Mm].
Qed.
