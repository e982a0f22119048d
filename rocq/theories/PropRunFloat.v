(** Theorems C135 and C136: sequences of integrate calls in double arithmetic,
    and their distance from the true motion. *)
From Coq Require Import Reals ZArith List Lra Lia.
From Coquelicot Require Import Coquelicot.
From Flocq Require Import Core.
From Verif Require Import Base BaseVec SpecRot SpecEarth SpecStrapdown SpecConverge SpecRunFloat SpecFloatOps ModelAttitude ModelGravity ModelNavUtils ModelStrapdown
  ModelDate ModelStrapdownFloat ModelFramesFloat ModelNavFloat ProofVec ProofAttitude2 ProofGravity ProofNavUtils ProofStrapdown ProofStrapdown2 ProofLip ProofConverge ProofStrapdownFloat
  ProofStrapdownFloat2 ProofFramesFloat ProofRunFloat ProofRunFloat2 PropNavFloat PropConverge.
Import ListNotations.
Open Scope R_scope.

(** C135: C122 for the states that a computation really has. One rounded call
    from an attitude within [e] of a rotation gives an attitude within
    [e + 2100 * 2^-53] of one, and stays within rounding of the exact call from
    the same numbers. *)
Theorem C135_one_call : forall F pow2 pow15, float_ok F -> pow2_ok pow2 ->
  (forall x, 1 / 2 <= x <= 2 -> Rabs (pow15 x - Rpower x (3 / 2)) <= 4 * u64) ->
  forall A R0 e y dV dTh t t0 d0, is_rotation R0 -> close_to e A (mvmul R0) -> 0 <= e <= 1 / 100 -> place_ok y ->
  (1 <= t - t0 <= 1000000)%Z -> norm dV <= 98 * lapse t0 t -> bpow radix2 (-480) <= norm dTh <= 4 ->
  exists B z A' z' R1,
    integrate dV dTh t (Some (NavS (Some A) (Some y) t0 d0)) = Ret (true, Some (NavS (Some B) (Some z) t (lapse t0 t))) /\
    integrate_f F pow2 pow15 dV dTh t A (fst y) (snd y) t0 = Ret (true, (A', z')) /\
    is_rotation R1 /\ close_to (e + 2100 * u64) A' (mvmul R1) /\ rounding_apart (B, z) (A', z').
Proof. exact call_float. Qed.
Print Assumptions C135_one_call.
(** Every call of a run does so, however long the run, while the attitude may be
    within 0.01 of a rotation: for 4e10 calls from an exact one. *)
Theorem C135_whole_run : forall F pow2 pow15, float_ok F -> pow2_ok pow2 ->
  (forall x, 1 / 2 <= x <= 2 -> Rabs (pow15 x - Rpower x (3 / 2)) <= 4 * u64) ->
  forall l A R0 e y t0, is_rotation R0 -> close_to e A (mvmul R0) -> 0 <= e -> inputs_ok t0 l -> e + 2100 * u64 * INR (length l) <= 1 / 100 ->
  follows F pow2 pow15 (A, y) t0 l.
Proof. exact run_follows. Qed.
Print Assumptions C135_whole_run.
(** A hundred samples a second for a thousand hours, from an attitude with a
    scale error of 1e-6. *)
Fixpoint level (t0 : Z) (n : nat) : list stamp :=
  match n with O => [] | S m => (V3 0 0 (- (981 / 10000)), V3 0 0 (1 / 1000), (t0 + 10000)%Z) :: level (t0 + 10000) m end.
Definition scaled : mat3 := M3 (1 + 1 / 1000000) 0 0 0 (1 + 1 / 1000000) 0 0 0 (1 + 1 / 1000000).
Lemma norm_down z : norm (V3 0 0 z) = Rabs z.
Proof. unfold norm, dot. cbn [vx vy vz]. replace (0 * 0 + 0 * 0 + z * z) with (Rsqr z) by (unfold Rsqr; ring). apply sqrt_Rsqr_abs. Qed.
Lemma tiny_480 : bpow radix2 (-480) <= 1 / 1000.
Proof. apply Rle_trans with (bpow radix2 (-10)); [apply bpow_le; discriminate|]. cbn. lra. Qed.
Lemma level_ok n : forall t0, inputs_ok t0 (level t0 n) /\ length (level t0 n) = n.
Proof.
  induction n as [|n IH]; intros t0; cbn [level inputs_ok length]; [auto|]. destruct (IH (t0 + 10000)%Z) as (I1 & I2). split; [|now rewrite I2].
  unfold lapse. replace (t0 + 10000 - t0)%Z with 10000%Z by lia. pose proof tiny_480.
  rewrite !norm_down, Rabs_left, Rabs_right by lra. split; [lia|]. split; [lra|]. split; [lra|exact I1].
Qed.
Example C135_case : forall y n, INR n <= 360000000 ->
  follows binary64_ops pow2_64 (fun x => rnd64 (Rpower x (3 / 2))) (scaled, y) 0 (level 0 n) /\ inputs_ok 0 (level 0 n) /\ length (level 0 n) = n /\ ~ is_rotation scaled.
Proof.
  intros y n Hn. destruct (level_ok n 0) as (I1 & I2). destruct C121_binary64 as (B1 & B2 & B3). pose proof u64_val as UV. pose proof u64_bounds as (U0 & _). pose proof (pos_INR n).
  assert (u64 * INR n <= u64 * 360000000) by nra. split; [|split; [exact I1|split; [exact I2|]]].
  - apply (C135_whole_run _ _ _ B1 B2 B3 (level 0 n) scaled m3id (1 / 1000000)); [exact rotation_id| |lra|exact I1|rewrite I2; lra].
    intros v. rewrite mvmul_id. replace (vsub (mvmul scaled v) v) with (vscale (1 / 1000000) v) by (unfold vsub, mvmul, scaled, vscale; cbn; apply v3_eq; ring).
    rewrite norm_scale, Rabs_right by lra. lra.
  - intros [D _]. specialize (D (V3 1 0 0) (V3 1 0 0)). unfold dot, mvmul, scaled in D. cbn in D. lra.
Qed.

(** C136: calls that may each end up to [rho] away from their exact result
    before the next one starts. The error grows by their number times [rho], and
    by the same constant as the other errors. *)
Theorem C136_disturbed_runs : forall A H V Fm W T, 0 <= A < PI / 2 -> 0 <= H < 6200000 -> 0 <= V -> 0 <= Fm -> 0 <= W -> 0 <= T ->
  exists K d, 0 < K /\ 0 < d /\ forall C y f w l C0 y0 s1 eta eps rho,
    motion T C y f w -> (forall t, 0 <= t <= T -> Box A H V (y t) /\ n1 (f t) <= Fm /\ n1 (w t) <= W) ->
    0 <= eta -> 0 <= eps -> 0 <= rho -> sampled T eta eps f w 0 l ->
    d9 C0 (C 0) + d6 y0 (y 0) + eta + eps + INR (length l) * rho <= d -> disturbed rho (C0, y0) l s1 ->
      d9 (fst s1) (C (end_time 0 l)) + d6 (snd s1) (y (end_time 0 l)) <= K * (d9 C0 (C 0) + d6 y0 (y 0) + eta + eps + INR (length l) * rho).
Proof. exact disturbed_converges. Qed.
Print Assumptions C136_disturbed_runs.
(** The vehicle of C129 turning for [T] seconds in [N] steps. *)
Example C136_case : forall T, 0 < T -> exists K d, 0 < d /\ forall N rho s1, (0 < N)%nat -> 0 <= rho -> T / INR N + INR N * rho <= d ->
  disturbed rho (m3id, resting) (repeat (vscale (T / INR N) held, vscale (T / INR N) (V3 0 0 1), T / INR N) N) s1 ->
  d9 (fst s1) (turning T) + d6 (snd s1) resting <= K * (T / INR N + INR N * rho).
Proof.
  intros T HT. pose proof PI_RGT_0.
  destruct (C136_disturbed_runs 0 0 0 (n1 held) 1 T) as (K & d & HK & Hd & Main); try lra; [apply n1_pos|].
  exists K, d. split; [exact Hd|]. intros N rho s1 HN Hr Hs HD. assert (PN : 0 < INR N) by (apply lt_0_INR, HN). set (h := T / INR N) in *.
  assert (Hh : 0 < h) by (apply Rdiv_lt_0_compat; lra). assert (EN : INR N * h = T) by (unfold h; field; lra).
  destruct (turning_sampled N T h 0 Hh) as [S1 S2]; [lra|]. rewrite Rplus_0_l, EN in S2.
  assert (Z9 : d9 m3id (turning 0) = 0).
  { unfold d9, turning. rewrite cos_0, sin_0. unfold n9, n1, msub, row1, row2, row3, m3id. cbn. rewrite Ropp_0, !Rminus_eq_0, !Rabs_R0. ring. }
  pose proof (Main turning (fun _ => resting) (fun _ => held) (fun _ => V3 0 0 1) (repeat (vscale h held, vscale h (V3 0 0 1), h) N) m3id resting s1 h 0 rho (turning_motion T)) as G.
  rewrite S2, Z9, d6_refl, repeat_length in G. replace (0 + 0 + h + 0 + INR N * rho) with (h + INR N * rho) in G by ring.
  apply G; auto; try lra.
  intros t _. split; [unfold Box, resting, v3zero; cbn; rewrite Rabs_R0; lra|]. split; [lra|]. unfold n1. cbn. rewrite Rabs_R0, Rabs_R1. lra.
Qed.
(** Exact runs are disturbed runs. *)
Theorem C136_exact_runs : forall rho l s s1, 0 <= rho -> nav_run s l = Ret s1 -> disturbed rho s l s1.
Proof.
  intros rho l s s1 Hr. revert s. induction l as [|[[dV dTh] dt] l IH]; intros s E; cbn [nav_run] in E.
  - injection E as <-. apply dist_nil.
  - destruct (nav_call s dV dTh dt) as [s2| | | |] eqn:E2; try discriminate. cbn [bind] in E. apply dist_cons with s2; [|now apply IH].
    intros s' ES. rewrite E2 in ES. injection ES as <-. unfold d9. rewrite d6_refl. unfold n9, n1, msub, row1, row2, row3. cbn. rewrite !Rminus_eq_0, !Rabs_R0. lra.
Qed.
Print Assumptions C136_exact_runs.
(** Runs in double arithmetic, as long as the computed position stays in range:
    the error is at most a constant times (initial error + longest step + sensor
    error + 2e-10 for every call), with one constant for all such runs. *)
Theorem C136_double_runs : forall A O H V Fm W T, 0 <= A < PI / 2 -> 0 <= O -> 0 <= H < 6200000 -> 0 <= V -> 0 <= Fm -> 0 <= W -> 0 <= T ->
  exists K, 0 < K /\ forall F pow2 pow15 C y f w l C0 y0 t0 eta eps,
    float_ok F -> pow2_ok pow2 -> (forall x, 1 / 2 <= x <= 2 -> Rabs (pow15 x - Rpower x (3 / 2)) <= 4 * u64) ->
    motion T C y f w -> (forall t, 0 <= t <= T -> Box A H V (y t) /\ Rabs (vy (fst (y t))) <= O /\ n1 (f t) <= Fm /\ n1 (w t) <= W) ->
    0 <= eta -> 0 <= eps -> sampled T eta eps f w 0 (steps t0 l) -> inputs_ok t0 l -> INR (length l) <= 10000000000 ->
    d9 C0 (C 0) <= 1 / 400 -> stays F pow2 pow15 (C0, y0) t0 l ->
    exists s1, nav_run_f F pow2 pow15 (C0, y0) t0 l = Ret (true, s1) /\
      d9 (fst s1) (C (end_time 0 (steps t0 l))) + d6 (snd s1) (y (end_time 0 (steps t0 l))) <=
        K * (d9 C0 (C 0) + d6 y0 (y 0) + eta + eps + INR (length l) * (2 / 10000000000)).
Proof. exact doubles_converge. Qed.
Print Assumptions C136_double_runs.
Theorem C136_double_is_disturbed : forall F pow2 pow15, float_ok F -> pow2_ok pow2 ->
  (forall x, 1 / 2 <= x <= 2 -> Rabs (pow15 x - Rpower x (3 / 2)) <= 4 * u64) ->
  forall l A R0 e y t0, is_rotation R0 -> close_to e A (mvmul R0) -> 0 <= e -> inputs_ok t0 l -> e + 2100 * u64 * INR (length l) <= 1 / 100 ->
  stays F pow2 pow15 (A, y) t0 l ->
  exists s1 R1, nav_run_f F pow2 pow15 (A, y) t0 l = Ret (true, s1) /\ disturbed (2 / 10000000000) (A, y) (steps t0 l) s1 /\
    place_ok (snd s1) /\ is_rotation R1 /\ close_to (e + 2100 * u64 * INR (length l)) (fst s1) (mvmul R1).
Proof. exact run_disturbed. Qed.
Print Assumptions C136_double_is_disturbed.
(** The turning vehicle sampled after 10 ms. *)
Example C136_double_case : let l := [(vscale (1 / 100) held, vscale (1 / 100) ez, 10000%Z)] in
  stays binary64_ops pow2_64 (fun x => rnd64 (Rpower x (3 / 2))) (m3id, resting) 0 l /\ inputs_ok 0 l /\ INR (length l) <= 10000000000 /\
  sampled (1 / 100) (1 / 100) 0 (fun _ => held) (fun _ => V3 0 0 1) 0 (steps 0 l) /\ d9 m3id (turning 0) <= 1 / 400.
Proof.
  intros l. assert (HH : norm held <= 98) by (unfold held, grav, resting, v3zero, vneg; cbn [fst snd vx vy vz]; rewrite Rmult_0_r, sin_0, Rmult_0_r, Rmult_0_r, g_ell_0, g_alt_0, !Ropp_0, norm_down; unfold gp_gEq; rewrite Rabs_left by lra; lra).
  assert (NE : norm (vscale (1 / 100) ez) = 1 / 100).
  { rewrite norm_scale, Rabs_right by lra. unfold ez. rewrite norm_down, Rabs_R1. ring. }
  assert (NV : norm (vscale (1 / 100) held) <= 98 * lapse 0 10000).
  { rewrite norm_scale, Rabs_right by lra. unfold lapse. change (10000 - 0)%Z with 10000%Z. lra. }
  pose proof tiny_480 as TT.
  assert (PR : place_ok resting) by (unfold place_ok, resting, v3zero; cbn; rewrite Rabs_R0; repeat split; lra).
  destruct C121_binary64 as (B1 & B2 & B3). split; [|split; [|split; [cbn; lra|split]]].
  - cbn [stays fst snd l]. split; [exact PR|]. intros [A1 [p v]] E.
    destruct (C135_one_call _ _ _ B1 B2 B3 m3id m3id 0 resting (vscale (1 / 100) held) (vscale (1 / 100) ez) 10000 0 0) as (B & z & A' & z' & R1 & E1 & E2 & _ & _ & RA); try lra; auto; try lia.
    { exact rotation_id. } { intros u. rewrite Rmult_0_l. replace (vsub _ _) with v3zero by (unfold vsub, v3zero; cbn; apply v3_eq; ring). unfold norm, dot, v3zero. cbn. replace (0 * 0 + 0 * 0 + 0 * 0) with 0 by ring. rewrite sqrt_0. lra. }
    assert (EE := eq_trans (eq_sym E) E2). injection EE as -> EZ. subst z'.
    destruct C129_call_case as (A2 & EC). apply (call_of_integrate m3id resting 0 0) in EC; [|unfold fits; lia].
    assert (EE := eq_trans (eq_sym E1) EC). injection EE as -> ->.
    destruct RA as (_ & Q1 & Q2 & Q3 & Q4 & Q5 & Q6). unfold resting, v3zero in *. cbn [fst snd vx vy vz] in *. rewrite Rminus_0_r in *.
    split; [|exact I]. unfold place_ok. cbn [fst snd]. repeat split; lra.
  - cbn [inputs_ok l]. repeat split; try lia; try exact NV; rewrite NE; lra.
  - cbn [steps sampled l]. unfold lapse. change (10000 - 0)%Z with 10000%Z. replace (10000 / 1000000) with (1 / 100) by lra.
    split; [lra|]. split; [lra|]. split; [intros E; apply (f_equal vz) in E; cbn in E; lra|]. split; [|exact I].
    intros s _. unfold ez. unfold n1, vsub. cbn [vx vy vz]. rewrite !Rminus_eq_0, !Rabs_R0. lra.
  - unfold d9, turning. rewrite cos_0, sin_0. unfold n9, n1, msub, row1, row2, row3, m3id. cbn. rewrite Ropp_0, !Rminus_eq_0, !Rabs_R0. lra.
Qed.
