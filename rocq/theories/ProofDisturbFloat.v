(** Proofs about long histories of the filter with one state in double
    arithmetic. *)
From Coq Require Import Reals ZArith List Lra Lia Psatz.
From Flocq Require Import Core.
From Verif Require Import Base ModelDate ModelKalmanFloat SpecFloatOps SpecKalmanFloat SpecDisturbFloat ProofStrapdownFloat ProofKalmanFloat.
From Verif Require ProofSteady ProofDisturb.
Import ListNotations.
Open Scope R_scope.

Local Notation level d m k := (ProofDisturb.level d (8 * u64) m k).
Local Notation limit d m := (ProofDisturb.limit d (8 * u64) m).

Lemma step_forgets d a s P V : 0 < d -> 0 <= a < 1 -> step_ok s -> 0 < V -> 0 < P -> (1 - a) * V <= P <= (1 + a) * V ->
  match s with Predict1 phi Q => d * (phi * phi * V) <= Q | Update1 _ _ _ => True end ->
  let b := match s with Predict1 _ _ => a / (1 + d) | Update1 _ _ _ => a end in
  (1 - b) * variance_step V s <= variance_step P s <= (1 + b) * variance_step V s.
Proof.
  intros D A Hs HV HP B F. destruct s as [phi Q|z H R]; cbn [variance_step].
  - assert (PP : 0 <= phi * phi) by apply Rle_0_sqr. cbv zeta. split.
    + apply ProofDisturb.ratio_low; try lra. nra.
    + apply ProofSteady.ratio_r; try lra. nra.
  - cbv zeta. change (/ (/ V + H * H / R)) with (variance_step V (Update1 z H R)). change (/ (/ P + H * H / R)) with (variance_step P (Update1 z H R)). split.
    + eapply Rle_trans; [apply step_scale; auto; lra|]. apply step_mono; [auto| |lra]. nra.
    + eapply Rle_trans; [apply step_mono with (P' := (1 + a) * V); [auto|lra|lra]|]. apply step_unscale; auto; lra.
Qed.

Lemma forever_bound d m l : 0 < d -> limit d m <= 1 / 2 -> forall x P V k, (k <= m)%nat ->
  calm V l -> fed d V l -> spaced1 m k l -> (1 - level d m k) * V <= P <= (1 + level d m k) * V ->
  exists out, run1_f rnd64 x P l = Ret out /\ length out = length l /\
    forall i, (i < length l)%nat -> Rabs (snd (nth i out (0, 0)) - variance V (firstn (S i) l)) <= limit d m * variance V (firstn (S i) l).
Proof.
  intros D L12. pose proof u64_bounds as U. assert (E0 : 0 <= 8 * u64) by lra.
  induction l as [|s l IH]; intros x P V k KM C F Sp B.
  { exists []. split; [reflexivity|]. split; [reflexivity|]. cbn. intros; lia. }
  assert (RV := calm_range _ _ C). destruct C as (_ & Hs & Hq & C). destruct F as (F1 & F).
  assert (PV : 0 < V) by (pose proof (bpow_gt_0 radix2 (-49)); lra).
  assert (LE := ProofDisturb.level_le m k D E0).
  assert (LG : 0 <= level d m k) by (apply ProofDisturb.level_ge0; auto; apply (@ssrbool.introT _ _ ssrnat.leP); auto).
  assert (PP : 0 < P) by nra.
  assert (MP : midrange P).
  { unfold midrange. rewrite Rabs_right by lra. change (-50)%Z with (-1 + -49)%Z. change 50%Z with (1 + 49)%Z. rewrite !bpow_plus.
    change (bpow radix2 (-1)) with (/ 2). change (bpow radix2 1) with 2. pose proof (bpow_gt_0 radix2 (-49)). nra. }
  assert (St : exists y, (match s with Predict1 phi Q => Ret (filterPredict1_f rnd64 x P phi Q) | Update1 z H Rk => filterUpdate1_f rnd64 x P z H Rk end) = Ret y /\
                (1 - 8 * u64) * variance_step P s <= snd y <= (1 + 8 * u64) * variance_step P s).
  { destruct s as [phi Q|z H R]; cbn [step_ok variance_step] in Hs, Hq |- *.
    - eexists. split; [reflexivity|]. destruct Hs. apply quiet_predict; auto.
    - destruct Hs as (MH & HR & MR). destruct (quiet_update x P z H R PP MP MH HR MR) as (x' & P' & E & Y).
      + change 46%Z with (1 + 45)%Z. rewrite bpow_plus. change (bpow radix2 1) with 2. assert (0 <= H * H) by apply Rle_0_sqr.
        apply Rle_trans with (H * H * (2 * V)); [apply Rmult_le_compat_l; [auto|]|lra]. nra.
      + exists (x', P'). split; [exact E|exact Y]. }
  destruct St as (y & Ey & By). cbn [run1_f]. rewrite Ey. cbn [bind].
  assert (SF := step_forgets d (level d m k) s P V D ltac:(lra) Hs PV PP B F1). cbv zeta in SF.
  set (V' := variance_step V s) in *. assert (PV' : 0 < V') by (apply step_pos; auto).
  assert (W : exists k', (k' <= m)%nat /\ spaced1 m k' l /\ (1 - level d m k') * V' <= snd y <= (1 + level d m k') * V').
  { assert (G : forall b, 0 <= b <= 1 / 2 -> (1 - b) * V' <= variance_step P s <= (1 + b) * V' -> (1 - (b + 2 * (8 * u64))) * V' <= snd y <= (1 + (b + 2 * (8 * u64))) * V').
    { intros b Hb (Q1 & Q2). set (Z := variance_step P s) in *. split.
      - apply Rle_trans with ((1 - 8 * u64) * Z); [|lra]. apply Rle_trans with ((1 - 8 * u64) * ((1 - b) * V')); [|apply Rmult_le_compat_l; lra].
        assert (0 <= 8 * u64 * b * V') by (repeat apply Rmult_le_pos; lra). nra.
      - apply Rle_trans with ((1 + 8 * u64) * Z); [lra|]. apply Rle_trans with ((1 + 8 * u64) * ((1 + b) * V')); [apply Rmult_le_compat_l; lra|].
        assert (8 * u64 * V' * b <= 8 * u64 * V' * 1) by (apply Rmult_le_compat_l; [nra|lra]). nra. }
    destruct s as [phi Q|z H R].
    - exists m. split; [lia|]. split; [exact Sp|]. assert (LP := ProofDisturb.level_predict m k D E0).
      assert (X0 := ProofSteady.div_pos LG (Rlt_le _ _ D)). assert (X1 := ProofDisturb.div_le_self LG (Rlt_le _ _ D)).
      destruct (G _ ltac:(split; [exact X0|lra]) SF) as (G1 & G2). split.
      + eapply Rle_trans; [|exact G1]. apply Rmult_le_compat_r; lra.
      + eapply Rle_trans; [exact G2|]. apply Rmult_le_compat_r; lra.
    - destruct k as [|k]; [destruct Sp|]. exists k. split; [lia|]. split; [exact Sp|]. rewrite <- (ProofDisturb.level_update d (8 * u64) m k). apply G; [lra|exact SF]. }
  destruct W as (k' & KM' & Sp' & W).
  destruct (IH (fst y) (snd y) V' k' KM' C F Sp' W) as (out & Eo & Lo' & Bo).
  rewrite Eo. cbn [bind]. exists (y :: out). split; [reflexivity|]. split; [cbn; congruence|].
  intros [|i] Hi.
  - cbn [firstn nth variance fold_left]. fold V'. replace (firstn 0 l) with (@nil step1) by (destruct l; reflexivity). cbn [fold_left].
    assert (LE' := ProofDisturb.level_le m k' D E0). apply Rabs_le. nra.
  - cbn [length] in Hi. specialize (Bo i ltac:(lia)). cbn [nth]. change (variance V (firstn (S (S i)) (s :: l))) with (variance V' (firstn (S i) l)). exact Bo.
Qed.
Lemma forever_float d m x P l : 0 < d -> 16 * u64 * (INR m + 1) * (1 + / d) <= 1 / 2 -> calm P l -> fed d P l -> spaced1 m m l ->
  exists out, run1_f rnd64 x P l = Ret out /\ length out = length l /\
    forall k, (k < length l)%nat -> Rabs (snd (nth k out (0, 0)) - variance P (firstn (S k) l)) <= 16 * u64 * (INR m + 1) * (1 + / d) * variance P (firstn (S k) l).
Proof.
  intros D L C F S. pose proof u64_bounds as U.
  assert (E : limit d m = 16 * u64 * (INR m + 1) * (1 + / d)) by (unfold ProofDisturb.limit; ring).
  rewrite <- E in *. apply forever_bound with m; auto. assert (PP := calm_range _ _ C). pose proof (bpow_gt_0 radix2 (-49)).
  assert (0 <= level d m m) by (apply ProofDisturb.level_ge0; [auto|lra|apply ssrnat.leqnn]). nra.
Qed.
