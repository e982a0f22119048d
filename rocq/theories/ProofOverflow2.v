(** No overflow in chains of attitude updates, quaternions, positions and gravity. *)
From Coq Require Import Reals ZArith List Lra Lia Psatz.
From Flocq Require Import Core IEEE754.Binary IEEE754.Bits.
From Verif Require Import Base BaseVec SpecRot ModelAttitude ModelNavUtils ModelDate ProofDate ModelGuardFloat ModelStrapdownFloat ModelFramesFloat
  ModelGravityFloat ModelAttitudeFloat SpecFloatOps SpecOverflow SpecStrapdown ProofVec ProofAttitude ProofRnd ProofStrapdownFloat ProofStrapdownFloat2 ProofOverflow.
Import ListNotations.
Open Scope R_scope.

(** ** Attitude *)
Lemma close_mbd e A f : (forall v, norm (f v) = norm v) -> close_to e A f -> e <= 1 -> mbd 10 A.
Proof.
  intros Hf HA He. assert (B : forall v, norm (mvmul A v) <= 2 * norm v).
  { intros v. specialize (HA v). replace (mvmul A v) with (vadd (vsub (mvmul A v) (f v)) (f v)) by (unfold vadd, vsub; destruct (mvmul A v), (f v); cbn; f_equal; ring).
    eapply Rle_trans; [apply norm_tri|]. rewrite Hf. pose proof (norm_nonneg v). nra. }
  destruct (entries_le A 2 B) as ((? & ? & ?) & (? & ? & ?) & (? & ? & ?)).
  assert (L : 2 <= bpow radix2 10) by (change (bpow radix2 10) with 1024; lra).
  unfold mbd, vbd, bd. repeat split; lra.
Qed.
Lemma chain_same r : binary64_in_range r -> forall l e A f, (forall v, norm (f v) = norm v) -> close_to e A f -> 0 <= e ->
  (forall d, In d l -> in_range d) -> e + 2100 * u64 * INR (length l) <= 1 ->
  attitude_f (ops_of r) A l = attitude_f binary64_ops A l.
Proof.
  intros Hr. induction l as [|d l IH]; intros e A f Hf HA He Hl Hn; [reflexivity|].
  cbn [length] in *. rewrite S_INR in *. pose proof u64_bounds. pose proof (pos_INR (length l)).
  assert (Hd : mu <= norm d <= 4) by (apply Hl; now left).
  assert (NI : 0 <= u64 * INR (length l)) by nra.
  cbn [attitude_f]. rewrite (step_same r A d Hr (close_mbd e A f Hf HA ltac:(nra)) Hd).
  rewrite (update_f_eq binary64_ops binary64_ok d Hd). cbn [bind snd].
  pose proof (step_f binary64_ops binary64_ok d Hd e A f Hf HA ltac:(nra)) as HS.
  apply (IH (e + 2100 * u64) _ (fun v => f (rotvec d v))); auto; try lra.
  - intros v. rewrite Hf. rewrite <- (Be_rotvec d Hd). now apply Be_norm.
  - intros d' Hd'. apply Hl. now right.
Qed.

Lemma bd_max a b x y : bd a x -> bd b y -> bd (Z.max a b + 1) (x + y).
Proof. intros A B. apply bd_add; [apply (bd_w a)|apply (bd_w b)]; auto; lia. Qed.
Lemma bd_max_sub a b x y : bd a x -> bd b y -> bd (Z.max a b + 1) (x - y).
Proof. intros A B. apply bd_max; [exact A|now apply bd_opp]. Qed.
Lemma bd_sqrt' k x : bd k x -> bd (Z.max 0 k) (sqrt x).
Proof. intros B. apply bd_sqrt; [lia|]. apply (bd_w k); [exact B|lia]. Qed.
Ltac bdx := lazymatch goal with
  | |- bd _ (_ * _) => eapply bd_mul; bdx
  | |- bd _ (_ + _) => eapply bd_max; bdx
  | |- bd _ (_ - _) => eapply bd_max_sub; bdx
  | |- bd _ (- _) => eapply bd_opp; bdx
  | |- bd _ (sqrt _) => eapply bd_sqrt'; bdx
  | L : bpow radix2 _ <= Rabs ?y |- bd _ (_ / ?y) => eapply bd_div; [bdx|exact L]
  | |- bd _ (sin _) => apply bd_sin
  | |- bd _ (cos _) => apply bd_cos
  | |- bd _ 1 => apply bd_1
  | |- bd _ 2 => apply bd_2
  | H : bd _ ?x |- bd _ ?x => exact H
  end.
(** Replace one innermost [r e] by a name for [rnd64 e] with a bound. *)
Ltac ov r Hr := match goal with
  | |- context [r ?e] =>
    lazymatch e with context [r _] => fail | _ => idtac end;
    let B := fresh "B" in let v := fresh "v" in
    eassert (B : bd _ e) by bdx;
    match type of B with bd ?k _ => let k' := eval compute in k in change (bd k' e) in B; rewrite (same r Hr k' e B) by lia;
      apply (bd_rnd k') in B; [|lia] end;
    set (v := rnd64 e) in *
  end.

Lemma acc k a b : (-1074 <= k)%Z -> 0 <= a -> 0 <= b -> bpow radix2 k <= a \/ bpow radix2 k <= b -> bpow radix2 k <= rnd64 (a + b).
Proof. intros K A B [H|H]; apply rnd64_ge_bpow; auto; lra. Qed.
Lemma rnd64_0 : rnd64 0 = 0.
Proof. pose proof (rnd64_exact 0 0 ltac:(lia) ltac:(lia)) as E. rewrite Rmult_0_l in E. exact E. Qed.
Lemma rnd64_ge0 x : 0 <= x -> 0 <= rnd64 x.
Proof. intros H. rewrite <- rnd64_0. now apply rnd64_le. Qed.
Lemma sq_ge k x : (-1074 <= k + k)%Z -> bpow radix2 k <= Rabs x -> bpow radix2 (k + k) <= rnd64 (x * x).
Proof.
  intros K H. apply rnd64_ge_bpow; [exact K|]. rewrite bpow_plus. pose proof (bpow_gt_0 radix2 k).
  rewrite <- (Rabs_pos_eq (x * x)) by nra. rewrite Rabs_mult. apply Rmult_le_compat; lra.
Qed.
Lemma sq_ge0 x : 0 <= rnd64 (x * x). Proof. apply rnd64_ge0. nra. Qed.

(** ** Quaternions *)
Lemma den_ge k q0 q1 q2 q3 : (-500 <= k)%Z -> (bpow radix2 k <= Rabs q0 \/ bpow radix2 k <= Rabs q1 \/ bpow radix2 k <= Rabs q2 \/ bpow radix2 k <= Rabs q3) ->
  bpow radix2 (k + k) <= Rabs (rnd64 (rnd64 (rnd64 (rnd64 (q0 * q0) + rnd64 (q1 * q1)) + rnd64 (q2 * q2)) + rnd64 (q3 * q3))).
Proof.
  intros K H. pose proof (sq_ge0 q0). pose proof (sq_ge0 q1). pose proof (sq_ge0 q2). pose proof (sq_ge0 q3).
  assert (N1 : 0 <= rnd64 (rnd64 (q0 * q0) + rnd64 (q1 * q1))) by (apply rnd64_ge0; lra).
  assert (N2 : 0 <= rnd64 (rnd64 (rnd64 (q0 * q0) + rnd64 (q1 * q1)) + rnd64 (q2 * q2))) by (apply rnd64_ge0; lra).
  rewrite Rabs_pos_eq by (apply rnd64_ge0; lra).
  apply acc; auto; [lia|]. destruct H as [H|[H|[H|H]]]; [left|left|left|right; apply sq_ge; auto; lia];
    (apply acc; auto; [lia|]); [left|left|right; apply sq_ge; auto; lia];
    (apply acc; auto; [lia|]); [left|right]; apply sq_ge; auto; lia.
Qed.
Lemma quat_same r q0 q1 q2 q3 : binary64_in_range r -> bd 300 q0 -> bd 300 q1 -> bd 300 q2 -> bd 300 q3 ->
  (bpow radix2 (-200) <= Rabs q0 \/ bpow radix2 (-200) <= Rabs q1 \/ bpow radix2 (-200) <= Rabs q2 \/ bpow radix2 (-200) <= Rabs q3) ->
  dcm_entries_f (ops_of r) q0 q1 q2 q3 = dcm_entries_f binary64_ops q0 q1 q2 q3.
Proof.
  intros Hr H0 H1 H2 H3 HL. pose proof (den_ge (-200) q0 q1 q2 q3 ltac:(lia) HL) as L. clear HL. cbn [Z.add Pos.add] in L.
  unfold dcm_entries_f. cbn [frnd ops_of binary64_ops]. cbv zeta beta.
  repeat ov r Hr.
  unfold Rdivc. match goal with |- context [Req_EM_T ?d 0] => destruct (Req_EM_T d 0) end; [reflexivity|]. cbn [bind].
  repeat ov r Hr. reflexivity.
Qed.
