(** No operation overflows: bounds by powers of two. *)
From Coq Require Import Reals ZArith List Lra Lia Psatz.
From Flocq Require Import Core.
From Verif Require Import Base BaseVec ModelNavUtils ModelDate ProofDate ModelStrapdownFloat SpecFloatOps SpecOverflow
  ProofRnd ProofStrapdownFloat.
Import ListNotations.
Open Scope R_scope.

Definition bd (k : Z) (x : R) : Prop := Rabs x <= bpow radix2 k.
Lemma rnd64_bpow k : (-1074 <= k)%Z -> rnd64 (bpow radix2 k) = bpow radix2 k.
Proof. intros H. pose proof (rnd64_exact 1 k H) as E. rewrite Rmult_1_l in E. apply E. lia. Qed.
Lemma bd_rnd k x : (-1074 <= k)%Z -> bd k x -> bd k (rnd64 x).
Proof.
  intros H B. unfold bd in *. apply Rabs_le_inv in B. apply Rabs_le. split.
  - rewrite <- (rnd64_bpow k H), <- rnd64_opp. apply rnd64_le. lra.
  - rewrite <- (rnd64_bpow k H). apply rnd64_le. lra.
Qed.
Lemma bd_w k k' x : bd k x -> (k <= k')%Z -> bd k' x.
Proof. intros B H. unfold bd in *. eapply Rle_trans; [exact B|]. now apply bpow_le. Qed.
Lemma bd_mul a b x y : bd a x -> bd b y -> bd (a + b) (x * y).
Proof. unfold bd. intros A B. rewrite bpow_plus, Rabs_mult. apply Rmult_le_compat; auto using Rabs_pos. Qed.
Lemma bd_add a x y : bd a x -> bd a y -> bd (a + 1) (x + y).
Proof.
  unfold bd. intros A B. rewrite bpow_plus. change (bpow radix2 1) with 2. pose proof (Rabs_triang x y). lra.
Qed.
Lemma bd_opp a x : bd a x -> bd a (- x).
Proof. unfold bd. now rewrite Rabs_Ropp. Qed.
Lemma bd_sub a x y : bd a x -> bd a y -> bd (a + 1) (x - y).
Proof. intros A B. apply bd_add; [exact A|now apply bd_opp]. Qed.
Lemma bd_sin x : bd 0 (sin x).
Proof. unfold bd. change (bpow radix2 0) with 1. apply Rabs_le, SIN_bound. Qed.
Lemma bd_cos x : bd 0 (cos x).
Proof. unfold bd. change (bpow radix2 0) with 1. apply Rabs_le, COS_bound. Qed.
Lemma bd_div a b x y : bd a x -> bpow radix2 b <= Rabs y -> bd (a - b) (x / y).
Proof.
  unfold bd. intros A B. pose proof (bpow_gt_0 radix2 b) as P. unfold Rdiv. rewrite Rabs_mult, Rabs_inv.
  unfold Zminus. rewrite bpow_plus, bpow_opp. apply Rmult_le_compat; auto using Rabs_pos.
  - apply Rlt_le, Rinv_0_lt_compat. lra.
  - now apply Rinv_le_contravar.
Qed.
Lemma bd_0 k : bd k 0. Proof. unfold bd. rewrite Rabs_R0. apply bpow_ge_0. Qed.
Lemma bd_1 : bd 0 1. Proof. unfold bd. rewrite Rabs_R1. apply Rle_refl. Qed.
Lemma bd_2 : bd 1 2. Proof. unfold bd. change (bpow radix2 1) with 2. rewrite Rabs_right; lra. Qed.
Lemma bd_sqrt k x : (0 <= k)%Z -> bd k x -> bd k (sqrt x).
Proof.
  unfold bd. intros K B. rewrite Rabs_right by (apply Rle_ge, sqrt_pos).
  assert (1 <= bpow radix2 k) by (change 1 with (bpow radix2 0); now apply bpow_le).
  destruct (Rle_dec 0 x) as [P|P]; [|rewrite sqrt_neg_0 by lra; lra].
  rewrite Rabs_right in B by lra. apply Rle_trans with (sqrt (bpow radix2 k * bpow radix2 k)).
  - apply sqrt_le_1_alt. nra.
  - rewrite sqrt_square by lra. lra.
Qed.

Section R.
Variable r : R -> R.
Hypothesis Hr : binary64_in_range r.
Lemma same k x : bd k x -> (k <= 1023)%Z -> r x = rnd64 x.
Proof.
  intros B K. apply Hr. apply Rle_lt_trans with (bpow radix2 1023).
  - apply bd_rnd; [lia|]. now apply (bd_w k).
  - apply bpow_lt. lia.
Qed.
End R.
(** Bound a float expression: the exponent is computed on the way. *)
Ltac bds := lazymatch goal with
  | H : bd ?k ?x |- bd _ ?x => exact H
  | |- bd _ (rnd64 _) => apply bd_rnd; [|bds]
  | |- bd _ (_ * _) => apply bd_mul; bds
  | |- bd _ (- _) => apply bd_opp; bds
  | |- bd _ (sin _) => apply bd_sin
  | |- bd _ (cos _) => apply bd_cos
  | |- bd _ 1 => apply bd_1
  | |- bd _ 2 => apply bd_2
  | |- _ => idtac end.

Lemma sum_w a b k x y : bd a x -> bd b y -> (a < k)%Z -> (b < k)%Z -> bd k (x + y).
Proof. intros A B K L. replace k with ((k - 1) + 1)%Z by lia. apply bd_add; [apply (bd_w a)|apply (bd_w b)]; auto; lia. Qed.
Lemma mul_w a b k x y : bd a x -> bd b y -> (a + b <= k)%Z -> bd k (x * y).
Proof. intros A B K. apply (bd_w (a + b)); [now apply bd_mul|lia]. Qed.

Definition vbd (k : Z) (v : vec3) := bd k (vx v) /\ bd k (vy v) /\ bd k (vz v).
Definition mbd (k : Z) (A : mat3) := vbd k (row1 A) /\ vbd k (row2 A) /\ vbd k (row3 A).
Lemma dot_same r a b p q : binary64_in_range r -> vbd p a -> vbd q b -> (-1000 <= p + q <= 1000)%Z ->
  fdot (ops_of r) a b = fdot binary64_ops a b /\ bd (p + q + 2) (fdot binary64_ops a b).
Proof.
  intros Hr (A1 & A2 & A3) (B1 & B2 & B3) K. cbn [fdot ops_of binary64_ops].
  assert (X : bd (p + q) (vx a * vx b)) by now apply bd_mul.
  assert (Y : bd (p + q) (vy a * vy b)) by now apply bd_mul.
  assert (Z : bd (p + q) (vz a * vz b)) by now apply bd_mul.
  rewrite (same r Hr _ _ X), (same r Hr _ _ Y), (same r Hr _ _ Z) by lia.
  apply bd_rnd in X; [|lia]. apply bd_rnd in Y; [|lia]. apply bd_rnd in Z; [|lia].
  pose proof (bd_add _ _ _ X Y) as S. rewrite (same r Hr _ _ S) by lia. apply bd_rnd in S; [|lia].
  assert (T : bd (p + q + 2) (rnd64 (rnd64 (vx a * vx b) + rnd64 (vy a * vy b)) + rnd64 (vz a * vz b))).
  { apply (sum_w (p + q + 1) (p + q)); auto; lia. }
  rewrite (same r Hr _ _ T) by lia. split; [reflexivity|]. apply bd_rnd; [lia|exact T].
Qed.
Ltac dmat A := let a := fresh "a" in destruct A as [?a ?a ?a ?a ?a ?a ?a ?a ?a].
Lemma mmul_same r A B p q : binary64_in_range r -> mbd p A -> mbd q B -> (-1000 <= p + q <= 1000)%Z ->
  mmul_f (ops_of r) A B = mmul_f binary64_ops A B /\ mbd (p + q + 2) (mmul_f binary64_ops A B).
Proof.
  intros Hr (A1 & A2 & A3) B1 K.
  assert (C : vbd q (col1 B) /\ vbd q (col2 B) /\ vbd q (col3 B)) by (destruct B, B1 as ((? & ? & ?) & (? & ? & ?) & (? & ? & ?)); cbn in *; repeat split; assumption).
  destruct C as (C1 & C2 & C3).
  pose proof (dot_same r _ _ p q Hr A1 C1 K) as (E11 & D11). pose proof (dot_same r _ _ p q Hr A1 C2 K) as (E12 & D12). pose proof (dot_same r _ _ p q Hr A1 C3 K) as (E13 & D13).
  pose proof (dot_same r _ _ p q Hr A2 C1 K) as (E21 & D21). pose proof (dot_same r _ _ p q Hr A2 C2 K) as (E22 & D22). pose proof (dot_same r _ _ p q Hr A2 C3 K) as (E23 & D23).
  pose proof (dot_same r _ _ p q Hr A3 C1 K) as (E31 & D31). pose proof (dot_same r _ _ p q Hr A3 C2 K) as (E32 & D32). pose proof (dot_same r _ _ p q Hr A3 C3 K) as (E33 & D33).
  split.
  - unfold mmul_f. congruence.
  - unfold mmul_f, mbd, vbd. cbn [row1 row2 row3 vx vy vz m11 m12 m13 m21 m22 m23 m31 m32 m33]. repeat split; assumption.
Qed.
Lemma mscale_same r k A p q : binary64_in_range r -> bd p k -> mbd q A -> (-1000 <= p + q <= 1000)%Z ->
  mscale_f (ops_of r) k A = mscale_f binary64_ops k A /\ mbd (p + q) (mscale_f binary64_ops k A).
Proof.
  intros Hr P ((? & ? & ?) & (? & ? & ?) & (? & ? & ?)) K. dmat A. cbn in *. split.
  - unfold mscale_f; cbn. f_equal; apply (same r Hr (p + q)); auto using bd_mul; lia.
  - repeat split; cbn; apply bd_rnd; auto using bd_mul; lia.
Qed.
Lemma madd_same r A B q : binary64_in_range r -> mbd q A -> mbd q B -> (-1000 <= q <= 1000)%Z ->
  madd_f (ops_of r) A B = madd_f binary64_ops A B /\ mbd (q + 1) (madd_f binary64_ops A B).
Proof.
  intros Hr ((? & ? & ?) & (? & ? & ?) & (? & ? & ?)) ((? & ? & ?) & (? & ? & ?) & (? & ? & ?)) K. dmat A. dmat B. cbn in *. split.
  - unfold madd_f; cbn. f_equal; apply (same r Hr (q + 1)); auto using bd_add; lia.
  - repeat split; cbn; apply bd_rnd; auto using bd_add; lia.
Qed.
Lemma mbd_w p q A : mbd p A -> (p <= q)%Z -> mbd q A.
Proof. intros ((? & ? & ?) & (? & ? & ?) & (? & ? & ?)) L. repeat split; eapply bd_w; eauto. Qed.

(** One attitude update. *)
Lemma rnd64_ge_bpow k x : (-1074 <= k)%Z -> bpow radix2 k <= x -> bpow radix2 k <= rnd64 x.
Proof. intros K H. rewrite <- (rnd64_bpow k K). now apply rnd64_le. Qed.
Lemma norm_comp d : norm d <= 4 -> vbd 2 d.
Proof.
  intros H. pose proof (comp_le d) as (X & Y & Z). unfold vbd, bd. change (bpow radix2 2) with 4. repeat split; lra.
Qed.
Lemma mag_ge d : bpow radix2 (-480) <= norm d -> bpow radix2 (-481) <= rnd64 (sqrt (fdot binary64_ops d d)).
Proof.
  intros N. apply rnd64_ge_bpow; [lia|].
  assert (S : bpow radix2 (-962) <= dot d d / 3).
  { assert (E : norm d * norm d = dot d d) by (unfold norm; apply sqrt_sqrt; unfold dot; nra).
    replace (-962)%Z with (-480 + -480 + -2)%Z by lia. rewrite !bpow_plus. change (bpow radix2 (-2)) with (/ 4).
    pose proof (bpow_gt_0 radix2 (-480)). nra. }
  assert (M : bpow radix2 (-962) <= fdot binary64_ops d d).
  { cbn [fdot binary64_ops]. set (x := vx d * vx d) in *. set (y := vy d * vy d) in *. set (z := vz d * vz d) in *.
    assert (P : 0 <= x /\ 0 <= y /\ 0 <= z) by (unfold x, y, z; repeat split; nra). destruct P as (Px & Py & Pz).
    assert (R0 : rnd64 0 = 0) by (pose proof (rnd64_exact 0 0 ltac:(lia) ltac:(lia)) as E; rewrite Rmult_0_l in E; exact E).
    assert (N0 : forall t, 0 <= t -> 0 <= rnd64 t) by (intros t Ht; rewrite <- R0; now apply rnd64_le).
    pose proof (N0 x Px). pose proof (N0 y Py). pose proof (N0 z Pz).
    assert (NS : 0 <= rnd64 (rnd64 x + rnd64 y)) by (apply N0; lra).
    assert (D : dot d d = x + y + z) by reflexivity. rewrite D in S.
    apply rnd64_ge_bpow; [lia|].
    destruct (Rle_dec (bpow radix2 (-962)) z) as [Z|Z].
    - pose proof (rnd64_ge_bpow (-962) z ltac:(lia) Z). lra.
    - assert (bpow radix2 (-962) <= rnd64 (rnd64 x + rnd64 y)).
      { apply rnd64_ge_bpow; [lia|]. destruct (Rle_dec (bpow radix2 (-962)) y) as [Y|Y].
        - pose proof (rnd64_ge_bpow (-962) y ltac:(lia) Y). lra.
        - assert (X : bpow radix2 (-962) <= x) by lra. pose proof (rnd64_ge_bpow (-962) x ltac:(lia) X). lra. }
      lra. }
  apply Rle_trans with (sqrt (bpow radix2 (-962))); [|now apply sqrt_le_1_alt].
  replace (-962)%Z with (-481 + -481)%Z by lia. rewrite bpow_plus, sqrt_square by apply bpow_ge_0. lra.
Qed.
Lemma sqrtc_ret x y : sqrtc x = Ret y -> y = sqrt x /\ 0 <= x.
Proof. unfold sqrtc. destruct (Rlt_dec x 0); intros E; [discriminate|]. injection E as <-. split; [reflexivity|lra]. Qed.

Lemma step_same r A d : binary64_in_range r -> mbd 10 A -> bpow radix2 (-480) <= norm d <= 4 ->
  updateAttitude_f (ops_of r) A d = updateAttitude_f binary64_ops A d.
Proof.
  intros Hr HA (N1 & N2). pose proof (norm_comp d N2) as Hd. pose proof (mag_ge d N1) as G.
  destruct (dot_same r d d 2 2 Hr Hd Hd ltac:(lia)) as (Ed & Bd). unfold updateAttitude_f. rewrite Ed.
  set (Q := fdot binary64_ops d d) in *. unfold sqrtc. destruct (Rlt_dec Q 0) as [L|L]; [reflexivity|]. cbn [bind].
  change (frnd (ops_of r)) with r. change (frnd binary64_ops) with rnd64.
  assert (Bq : bd 6 (sqrt Q)) by (apply bd_sqrt; [lia|exact Bd]). rewrite (same r Hr _ _ Bq) by lia.
  apply bd_rnd in Bq; [|lia]. set (m := rnd64 (sqrt Q)) in *. cbn [skewSymmetric negb].
  change (fsin (ops_of r) m) with (r (sin m)). change (fcos (ops_of r) m) with (r (cos m)).
  change (fsin binary64_ops m) with (rnd64 (sin m)). change (fcos binary64_ops m) with (rnd64 (cos m)).
  rewrite (same r Hr _ _ (bd_sin m)), (same r Hr _ _ (bd_cos m)) by lia.
  pose proof (bd_rnd 0 _ ltac:(lia) (bd_sin m)) as Bs. pose proof (bd_rnd 0 _ ltac:(lia) (bd_cos m)) as Bc.
  pose proof (bpow_gt_0 radix2 (-481)) as P0.
  assert (Am : bpow radix2 (-481) <= Rabs m) by (rewrite Rabs_right; lra).
  pose proof (bd_div _ _ _ _ Bs Am) as B1. cbn in B1.
  pose proof (bd_sub _ _ _ bd_1 Bc) as B2. rewrite (same r Hr _ _ B2) by lia. apply bd_rnd in B2; [|lia].
  pose proof (bd_mul _ _ _ _ Bq Bq) as B3. rewrite (same r Hr _ _ B3) by lia.
  assert (G2 : bpow radix2 (-962) <= rnd64 (m * m)).
  { apply rnd64_ge_bpow; [lia|]. replace (-962)%Z with (-481 + -481)%Z by lia. rewrite bpow_plus. apply Rmult_le_compat; lra. }
  assert (Am2 : bpow radix2 (-962) <= Rabs (rnd64 (m * m))) by (rewrite Rabs_right; [exact G2|pose proof (bpow_gt_0 radix2 (-962)); lra]).
  pose proof (bd_div _ _ _ _ B2 Am2) as B4. cbn in B4.
  unfold Rdivc. destruct (Req_EM_T m 0); [reflexivity|]. destruct (Req_EM_T (rnd64 (m * m)) 0); [reflexivity|]. cbn [bind].
  rewrite (same r Hr _ _ B1), (same r Hr _ _ B4) by lia. apply bd_rnd in B1; [|lia]. apply bd_rnd in B4; [|lia].
  set (s := rnd64 (rnd64 (sin m) / m)) in *. set (c := rnd64 (rnd64 (1 - rnd64 (cos m)) / rnd64 (m * m))) in *.
  match goal with |- context [mscale_f _ s ?S] => set (X := S) in * end.
  assert (HX : mbd 2 X).
  { destruct Hd as (? & ? & ?). unfold X, mbd, vbd; cbn. repeat split; auto using bd_0, bd_opp. }
  destruct (mscale_same r s X 481 2 Hr B1 HX ltac:(lia)) as (E1 & M1).
  destruct (mscale_same r c X 963 2 Hr B4 HX ltac:(lia)) as (E2 & M2). cbn [Z.add] in M1, M2.
  rewrite E1, E2. destruct (mmul_same r _ X _ 2 Hr M2 HX ltac:(lia)) as (E3 & M3'). rewrite E3.
  assert (HI : mbd 970 m3id) by (unfold mbd, vbd; cbn; repeat split; auto using bd_0; (apply (bd_w 0); [apply bd_1|lia])).
  destruct (madd_same r _ _ 970 Hr HI (mbd_w _ 970 _ M1 ltac:(lia)) ltac:(lia)) as (E4 & M4). rewrite E4.
  destruct (madd_same r _ _ 971 Hr M4 (mbd_w _ 971 _ M3' ltac:(lia)) ltac:(lia)) as (E5 & M5). rewrite E5.
  destruct (mmul_same r A _ 10 972 Hr HA M5 ltac:(lia)) as (E6 & M6). rewrite E6. reflexivity.
Qed.
