(** No overflow in a Runge-Kutta step. *)
From Coq Require Import Reals ZArith List Lra Lia Psatz.
From Flocq Require Import Core IEEE754.Binary IEEE754.Bits.
From Verif Require Import Base BaseVec ModelNavUtils ModelDate ProofDate ModelStrapdownFloat ModelFramesFloat ModelGravityFloat ModelNavFloat
  SpecFloatOps SpecOverflow ProofRnd ProofPi ProofLlaPole ProofOverflow ProofOverflow2 ProofOverflow3 ProofOverflow9.
Import ListNotations.
Open Scope R_scope.

Lemma cos_lo x : Rabs x <= 191 / 128 -> bpow radix2 (-4) <= Rabs (rnd64 (cos x)).
Proof.
  intros H. assert (E : cos x = cos (Rabs x)) by (unfold Rabs; destruct (Rcase_abs x); [now rewrite cos_neg|reflexivity]).
  pose proof PI_bounds as P. pose proof (Rabs_pos x) as A. apply rnd_lo; [lia|]. rewrite E. apply Rle_trans with (cos (191 / 128)).
  - rewrite cos_sin. replace (PI / 2 + 191 / 128) with (PI - (PI / 2 - 191 / 128)) by lra. rewrite sin_PI_x. set (t := PI / 2 - 191 / 128).
    assert (T : 786 / 10000 <= t <= 787 / 10000) by (unfold t; lra). pose proof (sin_low t ltac:(lra)) as S. cbn. nra.
  - destruct (Req_dec (Rabs x) (191 / 128)) as [->|N]; [lra|]. apply Rlt_le, cos_decreasing_1; lra.
Qed.
Definition InR (y : vec3 * vec3) : Prop := Rabs (vx (fst y)) <= 191 / 128 /\ bd 20 (vz (fst y)) /\ vbd 13 (snd y).
Definition acc_ok (dVN gN : vec3) (dt : R) : Prop :=
  (bpow radix2 (-200) <= dt <= bpow radix2 0) /\ bd 7 (vx dVN / dt) /\ bd 7 (vy dVN / dt) /\ bd 7 (vz dVN / dt) /\ vbd 7 gN.
Lemma nn_lo' s h : Rabs s <= 1 -> bd 20 h -> bpow radix2 22 <= rnd64 (rnd64 (gp_a_f / rnd64 (sqrt (nx s))) + h).
Proof.
  intros H Hh. unfold bd in Hh. change (bpow radix2 20) with 1048576 in Hh. apply Rabs_le_inv in Hh.
  assert (A : 6378137 <= rnd64 (gp_a_f / rnd64 (sqrt (nx s)))) by (apply div_ge; [unfold gp_a_f; lra|pose proof (ns_bd s H); lra|lia]).
  apply rnd64_ge_bpow; [lia|]. change (bpow radix2 22) with 4194304. lra.
Qed.
Lemma nm_lo' s h : Rabs s <= 1 -> bd 20 h ->
  bpow radix2 22 <= rnd64 (rnd64 (rnd64 (gp_a_f * rnd64 (1 - ne2)) / rnd64 (nx s * sqrt (nx s))) + h).
Proof.
  intros H Hh. unfold bd in Hh. change (bpow radix2 20) with 1048576 in Hh. apply Rabs_le_inv in Hh.
  pose proof ne2_bd as C. assert (D : 127 / 128 <= rnd64 (1 - ne2)).
  { replace (127 / 128) with (IZR 127 * bpow radix2 (-7)) by (cbn; lra). apply rnd_dn; try lia. cbn. lra. }
  assert (E : 6328000 <= rnd64 (gp_a_f * rnd64 (1 - ne2))).
  { replace 6328000 with (IZR 6328000 * bpow radix2 0) by (cbn; lra). apply rnd_dn; try lia. cbn [bpow]. unfold gp_a_f. lra. }
  assert (A : 6328000 <= rnd64 (rnd64 (gp_a_f * rnd64 (1 - ne2)) / rnd64 (nx s * sqrt (nx s)))).
  { apply div_ge; [exact E|pose proof (np_bd s H); lra|lia]. }
  apply rnd64_ge_bpow; [lia|]. change (bpow radix2 22) with 4194304. lra.
Qed.
(** One evaluation gives numbers of the expected size. *)
Lemma dynamics_bd y dVN gN dt : InR y -> acc_ok dVN gN dt -> exists p q,
  strapdownDynamics_f binary64_ops (pow2_of rnd64) (pow15_of rnd64) y dVN gN dt = Ret (p, q) /\
  bd (-8) (vx p) /\ bd (-5) (vy p) /\ bd 13 (vz p) /\ vbd 12 q.
Proof.
  intros (Hl & Hh & (v1 & v2 & v3)) (Hd & d1 & d2 & d3 & (g1 & g2 & g3)). assert (Hr : binary64_in_range rnd64) by (intros x _; reflexivity).
  pose proof (cos_lo _ Hl) as Hc. unfold strapdownDynamics_f.
  cbv zeta. unfold gp_f_f, gp_wE_f. cbn [frnd fsin fcos ops_of binary64_ops]. unfold pow2_of, pow15_of. cbv beta.
  set (la := vx (fst y)) in *. set (h := vz (fst y)) in *. set (vN := vx (snd y)) in *. set (vE := vy (snd y)) in *. set (vD := vz (snd y)) in *.
  pose proof (half_lo _ (ns_bd _ (abs_rnd_sin la))) as L1. pose proof (half_lo _ (np_bd _ (abs_rnd_sin la))) as L2.
  pose proof (abs_of _ _ (nm_lo' _ h (abs_rnd_sin la) Hh)) as L3.
  pose proof (mul_abs_lo 22 (-4) _ _ ltac:(lia) (nn_lo' _ h (abs_rnd_sin la) Hh) Hc) as L4. change (22 + -4)%Z with 18%Z in L4.
  pose proof (proj1 (nx_bd _ (abs_rnd_sin la))) as L0.
  clear Hc. pose proof bd_a as BA. pose proof bd_c298 as BC. pose proof c298_lo as LC. unfold nx, ne2, cf in L0, L1, L2, L3, L4. change (298257222101 / 1000000000) with c298.
  assert (W1 : bd 3 (7292115 / 1000000)) by num 3%Z. assert (W2 : bd (-16) (1 / 100000)) by num (-16)%Z.
  set (w1 := 7292115 / 1000000) in *. set (w2 := 1 / 100000) in *.
  set (a := gp_a_f) in *. set (c := c298) in *. clearbody w1 w2 a c la h vN vE vD.
  assert (Nz : forall k z, bpow radix2 k <= Rabs z -> z <> 0) by (intros k z Hz ->; rewrite Rabs_R0 in Hz; pose proof (bpow_gt_0 radix2 k); lra).
  assert (Dt : forall x d, d <> 0 -> Rdivc x d = Ret (x / d)).
  { intros x d D. unfold Rdivc. destruct (Req_EM_T d 0); [contradiction|reflexivity]. }
  rewrite !(Dt _ dt) by (pose proof (bpow_gt_0 radix2 (-200)); lra). cbn [bind].
  set (a0 := vx dVN / dt) in *. set (a1 := vy dVN / dt) in *. set (a2 := vz dVN / dt) in *. clearbody a0 a1 a2.
  match goal with |- context [Rpower ?v (3 / 2)] => rewrite !(rpower15 v) by lra end. unfold sqrtc. match goal with |- context [Rlt_dec ?d 0] => destruct (Rlt_dec d 0) end; [lra|]. cbn [bind].
  rewrite (Dt a) by (eapply Nz; exact L1). cbn [bind]. rewrite (Dt (rnd64 (a * _))) by (eapply Nz; exact L2). cbn [bind].
  rewrite (Dt vN) by (eapply Nz; exact L3). cbn [bind]. rewrite (Dt vE) by (eapply Nz; exact L4). cbn [bind].
  eexists _, _. split; [reflexivity|]. cbn [vx vy vz fst snd]. clear Nz Dt Hr n L0.
  repeat match goal with |- context [rnd64 ?e] =>
    lazymatch e with context [rnd64 _] => fail | _ => idtac end;
    let B := fresh "B" in let v := fresh "v" in
    eassert (B : bd _ e) by bdx;
    match type of B with bd ?k _ => let k' := eval compute in k in change (bd k' e) in B; apply (bd_rnd k') in B; [|lia]; set (v := rnd64 e) in *; clearbody v end end.
  unfold vbd. cbn [vx vy vz]. repeat split; try (eapply bd_w; [eassumption|lia]). apply bd_opp. eapply bd_w; [eassumption|lia].
Qed.

Definition sbd (a b c d : Z) (y : vec3 * vec3) : Prop := bd a (vx (fst y)) /\ bd b (vy (fst y)) /\ bd c (vz (fst y)) /\ vbd d (snd y).
Lemma sbd_w a b c d a' b' c' d' y : sbd a b c d y -> (a <= a')%Z -> (b <= b')%Z -> (c <= c')%Z -> (d <= d')%Z -> sbd a' b' c' d' y.
Proof.
  intros (A & B & C & (D1 & D2 & D3)) ? ? ? ?.
  repeat split; eapply bd_w; eauto.
Qed.
Lemma scale_same r k p a b c d y : binary64_in_range r -> bd p k -> sbd a b c d y ->
  (-1000 <= p + a <= 1000)%Z -> (-1000 <= p + b <= 1000)%Z -> (-1000 <= p + c <= 1000)%Z -> (-1000 <= p + d <= 1000)%Z ->
  s6scale_f (ops_of r) k y = s6scale_f binary64_ops k y /\ sbd (p + a) (p + b) (p + c) (p + d) (s6scale_f binary64_ops k y).
Proof.
  intros Hr Hk (A & B & C & (D1 & D2 & D3)) Ka Kb Kc Kd. unfold s6scale_f, s6map, vmap, s6scale. cbn [fst snd frnd ops_of binary64_ops].
  unfold vscale. cbn [vx vy vz].
  pose proof (bd_mul p a _ _ Hk A) as A'. pose proof (bd_mul p b _ _ Hk B) as B'. pose proof (bd_mul p c _ _ Hk C) as C'.
  pose proof (bd_mul p d _ _ Hk D1) as D1'. pose proof (bd_mul p d _ _ Hk D2) as D2'. pose proof (bd_mul p d _ _ Hk D3) as D3'.
  rewrite (same r Hr _ _ A'), (same r Hr _ _ B'), (same r Hr _ _ C'), (same r Hr _ _ D1'), (same r Hr _ _ D2'), (same r Hr _ _ D3') by lia.
  split; [reflexivity|]. repeat split; apply bd_rnd; auto; lia.
Qed.
Lemma add_same r a b c d y z : binary64_in_range r -> sbd a b c d y -> sbd a b c d z ->
  (-1000 <= a <= 1000)%Z -> (-1000 <= b <= 1000)%Z -> (-1000 <= c <= 1000)%Z -> (-1000 <= d <= 1000)%Z ->
  s6add_f (ops_of r) y z = s6add_f binary64_ops y z /\ sbd (a + 1) (b + 1) (c + 1) (d + 1) (s6add_f binary64_ops y z).
Proof.
  intros Hr (A & B & C & (D1 & D2 & D3)) (A0 & B0 & C0 & (E1 & E2 & E3)) Ka Kb Kc Kd. unfold s6add_f, s6map, vmap, s6add. cbn [fst snd frnd ops_of binary64_ops].
  unfold vadd. cbn [vx vy vz].
  pose proof (bd_add _ _ _ A A0) as A'. pose proof (bd_add _ _ _ B B0) as B'. pose proof (bd_add _ _ _ C C0) as C'.
  pose proof (bd_add _ _ _ D1 E1) as D1'. pose proof (bd_add _ _ _ D2 E2) as D2'. pose proof (bd_add _ _ _ D3 E3) as D3'.
  rewrite (same r Hr _ _ A'), (same r Hr _ _ B'), (same r Hr _ _ C'), (same r Hr _ _ D1'), (same r Hr _ _ D2'), (same r Hr _ _ D3') by lia.
  split; [reflexivity|]. repeat split; apply bd_rnd; auto; lia.
Qed.
Definition start_ok (y : vec3 * vec3) : Prop := Rabs (vx (fst y)) <= 148 / 100 /\ bd 100 (vy (fst y)) /\ bd 19 (vz (fst y)) /\ vbd 12 (snd y).
Lemma start_sbd y : start_ok y -> sbd 1 100 19 12 y.
Proof. intros (A & B & C & D). split; [|split; [|split]]; auto. unfold bd. change (bpow radix2 1) with 2. lra. Qed.
Lemma start_InR y : start_ok y -> InR y.
Proof. intros (A & B & C & (D1 & D2 & D3)). split; [lra|]. split; [|repeat split]; eapply bd_w; eauto; lia. Qed.
Lemma stage_ok r y k : binary64_in_range r -> start_ok y -> sbd (-8) 100 19 12 k ->
  s6add_f (ops_of r) y k = s6add_f binary64_ops y k /\ InR (s6add_f binary64_ops y k).
Proof.
  intros Hr Hy Hk. destruct (add_same r 1 100 19 12 y k Hr (start_sbd y Hy) ltac:(eapply sbd_w; [exact Hk|lia..]) ltac:(lia) ltac:(lia) ltac:(lia) ltac:(lia)) as (E & (_ & _ & H & V)).
  split; [exact E|]. split; [|split; [exact H|exact V]]. destruct Hy as (A & _). destruct Hk as (K & _). unfold bd in K.
  unfold s6add_f, s6map, vmap, s6add, vadd. cbn [fst snd frnd binary64_ops vx vy vz].
  replace (bpow radix2 (-8)) with (/ 256) in K by reflexivity.
  assert (S : Rabs (vx (fst y) + vx (fst k)) <= 191 / 128) by (eapply Rle_trans; [apply Rabs_triang|lra]).
  apply Rabs_le_inv in S. apply Rabs_le. replace (191 / 128) with (IZR 191 * bpow radix2 (-7)) by (cbn; lra).
  replace (- (IZR 191 * bpow radix2 (-7))) with (IZR (-191) * bpow radix2 (-7)) by (cbn; lra).
  split; [apply rnd_dn|apply rnd_up]; try lia; cbn; lra.
Qed.
Lemma dyn_step r y dVN gN dt : binary64_in_range r -> InR y -> acc_ok dVN gN dt -> exists K,
  strapdownDynamics_f (ops_of r) (pow2_of r) (pow15_of r) y dVN gN dt = Ret K /\
  strapdownDynamics_f binary64_ops (pow2_of rnd64) (pow15_of rnd64) y dVN gN dt = Ret K /\
  s6scale_f (ops_of r) dt K = s6scale_f binary64_ops dt K /\ sbd (-8) (-5) 13 12 (s6scale_f binary64_ops dt K).
Proof.
  intros Hr Hy Ha. destruct (dynamics_bd y dVN gN dt Hy Ha) as (p & q & E & B1 & B2 & B3 & B4). exists (p, q).
  pose proof Hy as (Hl & Hh & Hv). pose proof Ha as (Hd & A1 & A2 & A3 & Hg). pose proof (bpow_gt_0 radix2 (-200)) as P.
  assert (Bt : bd 0 dt) by (unfold bd; rewrite Rabs_pos_eq; lra).
  assert (Q : forall x, bd 7 (x / dt) -> bd 200 x).
  { intros x X. replace x with (x / dt * dt) by (field; lra). eapply bd_w; [apply bd_mul; [exact X|exact Bt]|lia]. }
  split; [|split; [exact E|]].
  - rewrite dynamics_same; [exact E|exact Hr|..].
    + eapply Rle_trans; [|apply cos_lo, Hl]. apply bpow_le. lia.
    + apply abs_of. lra.
    + unfold bd in Hh. apply Rabs_le_inv in Hh. pose proof (bpow_le radix2 20 22 ltac:(lia)). pose proof (bpow_le radix2 20 200 ltac:(lia)). lra.
    + destruct Hv as (? & ? & ?). repeat split; eapply bd_w; eauto; lia.
    + repeat split; auto.
    + destruct Hg as (? & ? & ?). repeat split; eapply bd_w; eauto; lia.
  - apply (scale_same r dt 0 (-8) (-5) 13 12 (p, q) Hr Bt); try lia. repeat split; auto; apply B4.
Qed.
Ltac lias := repeat match goal with |- _ /\ _ => split | |- _ => lia end.
Lemma rk4_same r y dVN gN dt : binary64_in_range r -> start_ok y -> acc_ok dVN gN dt ->
  rk4_step_f (ops_of r) (pow2_of r) (pow15_of r) y dt dVN gN = rk4_step_f binary64_ops (pow2_of rnd64) (pow15_of rnd64) y dt dVN gN /\
  exists z, rk4_step_f binary64_ops (pow2_of rnd64) (pow15_of rnd64) y dt dVN gN = Ret z /\ sbd 5 104 23 16 z.
Proof.
  intros Hr Hy Ha. unfold rk4_step_f. cbv zeta. change (frnd (ops_of r)) with r. change (frnd binary64_ops) with rnd64.
  assert (H2 : bd (-1) (/ 2)) by num (-1)%Z. assert (H6 : bd (-2) (1 / 6)) by num (-2)%Z. assert (H3 : bd (-1) (1 / 3)) by num (-1)%Z.
  rewrite (same r Hr _ _ H6), (same r Hr _ _ H3) by lia. apply (bd_rnd (-2)) in H6; [|lia]. apply (bd_rnd (-1)) in H3; [|lia].
  set (c6 := rnd64 (1 / 6)) in *. set (c3 := rnd64 (1 / 3)) in *. clearbody c6 c3.
  destruct (dyn_step r y dVN gN dt Hr (start_InR y Hy) Ha) as (f1 & E1 & E1' & S1 & B1). rewrite E1, E1'. cbn [bind]. rewrite S1.
  set (K1 := s6scale_f binary64_ops dt f1) in *. clearbody K1.
  destruct (scale_same r (/ 2) (-1) _ _ _ _ K1 Hr H2 B1 ltac:(lia) ltac:(lia) ltac:(lia) ltac:(lia)) as (Q1 & R1). rewrite Q1.
  destruct (stage_ok r y _ Hr Hy ltac:(eapply sbd_w; [exact R1|lia..])) as (T1 & I1). rewrite T1.
  destruct (dyn_step r _ dVN gN dt Hr I1 Ha) as (f2 & E2 & E2' & S2 & B2). rewrite E2, E2'. cbn [bind]. rewrite S2.
  set (K2 := s6scale_f binary64_ops dt f2) in *. clearbody K2.
  destruct (scale_same r (/ 2) (-1) _ _ _ _ K2 Hr H2 B2 ltac:(lia) ltac:(lia) ltac:(lia) ltac:(lia)) as (Q2 & R2). rewrite Q2.
  destruct (stage_ok r y _ Hr Hy ltac:(eapply sbd_w; [exact R2|lia..])) as (T2 & I2). rewrite T2.
  destruct (dyn_step r _ dVN gN dt Hr I2 Ha) as (f3 & E3 & E3' & S3 & B3). rewrite E3, E3'. cbn [bind]. rewrite S3.
  set (K3 := s6scale_f binary64_ops dt f3) in *. clearbody K3.
  destruct (stage_ok r y K3 Hr Hy ltac:(eapply sbd_w; [exact B3|lia..])) as (T3 & I3). rewrite T3.
  destruct (dyn_step r _ dVN gN dt Hr I3 Ha) as (f4 & E4 & E4' & S4 & B4). rewrite E4, E4'. cbn [bind]. rewrite S4.
  set (K4 := s6scale_f binary64_ops dt f4) in *. clearbody K4.
  destruct (scale_same r c6 (-2) _ _ _ _ K1 Hr H6 B1 ltac:(lia) ltac:(lia) ltac:(lia) ltac:(lia)) as (U1 & V1).
  destruct (scale_same r c3 (-1) _ _ _ _ K2 Hr H3 B2 ltac:(lia) ltac:(lia) ltac:(lia) ltac:(lia)) as (U2 & V2).
  destruct (scale_same r c3 (-1) _ _ _ _ K3 Hr H3 B3 ltac:(lia) ltac:(lia) ltac:(lia) ltac:(lia)) as (U3 & V3').
  destruct (scale_same r c6 (-2) _ _ _ _ K4 Hr H6 B4 ltac:(lia) ltac:(lia) ltac:(lia) ltac:(lia)) as (U4 & V4).
  rewrite U1, U2, U3, U4.
  destruct (add_same r 1 100 19 12 y _ Hr (start_sbd y Hy) ltac:(eapply sbd_w; [exact V1|lia..]) ltac:(lia) ltac:(lia) ltac:(lia) ltac:(lia)) as (X1 & Y1). rewrite X1.
  destruct (add_same r _ _ _ _ _ _ Hr Y1 ltac:(eapply sbd_w; [exact V2|lia..]) ltac:(lia) ltac:(lia) ltac:(lia) ltac:(lia)) as (X2 & Y2). rewrite X2.
  destruct (add_same r _ _ _ _ _ _ Hr Y2 ltac:(eapply sbd_w; [exact V3'|lia..]) ltac:(lia) ltac:(lia) ltac:(lia) ltac:(lia)) as (X3 & Y3). rewrite X3.
  destruct (add_same r _ _ _ _ _ _ Hr Y3 ltac:(eapply sbd_w; [exact V4|lia..]) ltac:(lia) ltac:(lia) ltac:(lia) ltac:(lia)) as (X4 & Y4). rewrite X4.
  split; [reflexivity|]. eexists. split; [reflexivity|]. exact Y4.
Qed.
Lemma bd_quot x dt : 0 < dt -> Rabs x <= bpow radix2 7 * dt -> bd 7 (x / dt).
Proof.
  intros H X. unfold bd, Rdiv. rewrite Rabs_mult, (Rabs_pos_eq (/ dt)) by (apply Rlt_le, Rinv_0_lt_compat; lra).
  apply Rmult_le_reg_r with dt; [lra|]. rewrite Rmult_assoc, Rinv_l by lra. lra.
Qed.
Lemma rk4_vec_same r lat lon h vN vE vD dt dVN gN : binary64_in_range r ->
  Rabs lat <= 148 / 100 -> Rabs lon <= bpow radix2 100 -> Rabs h <= bpow radix2 19 ->
  (forall x, In x [vN; vE; vD] -> Rabs x <= bpow radix2 12) ->
  bpow radix2 (-200) <= dt <= bpow radix2 0 ->
  (forall x, In x [vx dVN; vy dVN; vz dVN] -> Rabs x <= bpow radix2 7 * dt) ->
  (forall x, In x [vx gN; vy gN; vz gN] -> Rabs x <= bpow radix2 7) ->
  strapdownRk4_f (ops_of r) (pow2_of r) (pow15_of r) [lat; lon; h; vN; vE; vD] dt dVN gN [0; 0; 0; 0; 0; 0] =
    strapdownRk4_f binary64_ops (pow2_of rnd64) (pow15_of rnd64) [lat; lon; h; vN; vE; vD] dt dVN gN [0; 0; 0; 0; 0; 0] /\
  exists l, strapdownRk4_f binary64_ops (pow2_of rnd64) (pow15_of rnd64) [lat; lon; h; vN; vE; vD] dt dVN gN [0; 0; 0; 0; 0; 0] = Ret (true, l).
Proof.
  intros Hr A B C D T U G. pose proof (bpow_gt_0 radix2 (-200)) as P.
  destruct (rk4_same r (V3 lat lon h, V3 vN vE vD) dVN gN dt Hr) as (E & z & Z & _).
  - split; [exact A|]. split; [exact B|]. split; [exact C|]. repeat split; apply D; cbn; tauto.
  - split; [exact T|]. split; [|split; [|split]]; try (apply bd_quot; [lra|apply U; cbn; tauto]). repeat split; apply G; cbn; tauto.
  - unfold strapdownRk4_f. cbn [length Nat.eqb]. rewrite E, Z. cbn [bind]. split; [reflexivity|]. eexists. reflexivity.
Qed.
Lemma rk4_case_bounds : Rabs (3 / 5) <= 148 / 100 /\ Rabs (-2) <= bpow radix2 100 /\ Rabs 1000 <= bpow radix2 19 /\ Rabs 250 <= bpow radix2 12 /\
  (bpow radix2 (-200) <= 1 / 100 <= bpow radix2 0) /\ Rabs (-1 / 10) <= bpow radix2 7 * (1 / 100) /\ Rabs (98 / 10) <= bpow radix2 7.
Proof.
  assert (K : Rabs (-2) <= bpow radix2 100).
  { rewrite Rabs_left by lra. pose proof (bpow_le radix2 1 100 ltac:(lia)) as H. change (bpow radix2 1) with 2 in H. lra. }
  assert (L : bpow radix2 (-200) <= 1 / 100).
  { pose proof (bpow_le radix2 (-200) (-7) ltac:(lia)) as H. change (bpow radix2 (-7)) with (/ 128) in H. lra. }
  change (bpow radix2 19) with 524288. change (bpow radix2 12) with 4096. change (bpow radix2 7) with 128. change (bpow radix2 0) with 1.
  rewrite (Rabs_pos_eq (3 / 5)), (Rabs_pos_eq 1000), (Rabs_pos_eq 250), (Rabs_pos_eq (98 / 10)), (Rabs_left (-1 / 10)) by lra.
  repeat split; try lra; assumption.
Qed.
