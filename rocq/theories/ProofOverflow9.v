(** No overflow in the navigation equations. *)
From Coq Require Import Reals ZArith List Lra Lia Psatz.
From Flocq Require Import Core IEEE754.Binary IEEE754.Bits.
From Verif Require Import Base BaseVec ModelNavUtils ModelDate ProofDate ModelStrapdownFloat ModelFramesFloat ModelGravityFloat ModelNavFloat
  SpecFloatOps SpecOverflow ProofRnd ProofOverflow ProofOverflow2 ProofOverflow3.
Import ListNotations.
Open Scope R_scope.

Definition ne2 : R := rnd64 (rnd64 (2 * cf) - rnd64 (cf * cf)).
Definition nx (s : R) : R := rnd64 (1 - rnd64 (ne2 * rnd64 (s * s))).
Lemma ne2_bd : 0 <= ne2 <= / 128.
Proof.
  pose proof cf_bd as C. assert (A : rnd64 (cf * cf) <= rnd64 (2 * cf)) by (apply rnd64_le; nra). pose proof (sq_ge0 cf) as B.
  assert (D : rnd64 (2 * cf) <= / 128) by (replace (/ 128) with (IZR 1 * bpow radix2 (-7)) by (cbn; lra); apply rnd_up; try lia; cbn; lra).
  unfold ne2. split; [apply rnd64_ge0; lra|]. replace (/ 128) with (IZR 1 * bpow radix2 (-7)) by (cbn; lra). apply rnd_up; try lia. cbn. lra.
Qed.
Lemma nx_bd s : Rabs s <= 1 -> 127 / 128 <= nx s <= 1.
Proof.
  intros H. pose proof ne2_bd as C. pose proof (rsq_le1 s H) as S. unfold nx. set (q := rnd64 (s * s)) in *.
  assert (A : 0 <= rnd64 (ne2 * q) <= / 128).
  { split; [apply rnd64_ge0; nra|]. replace (/ 128) with (IZR 1 * bpow radix2 (-7)) by (cbn; lra). apply rnd_up; try lia. cbn. nra. }
  split.
  - replace (127 / 128) with (IZR 127 * bpow radix2 (-7)) by (cbn; lra). apply rnd_dn; try lia. cbn. lra.
  - replace 1 with (IZR 1 * bpow radix2 0) at 2 by (cbn; lra). apply rnd_up; try lia. cbn. lra.
Qed.
Lemma sqrt_bd x : 127 / 128 <= x <= 1 -> 127 / 128 <= sqrt x <= 1.
Proof.
  intros H. split.
  - rewrite <- (sqrt_square (127 / 128)) by lra. apply sqrt_le_1_alt. lra.
  - rewrite <- sqrt_1. apply sqrt_le_1_alt. lra.
Qed.
Lemma half_one x : 1 / 2 <= x <= 1 -> 1 / 2 <= rnd64 x <= 1.
Proof.
  intros H. split.
  - replace (1 / 2) with (IZR 1 * bpow radix2 (-1)) by (cbn; lra). apply rnd_dn; try lia. cbn. lra.
  - replace 1 with (IZR 1 * bpow radix2 0) by (cbn; lra). apply rnd_up; try lia. cbn. lra.
Qed.
Lemma ns_bd s : Rabs s <= 1 -> 1 / 2 <= rnd64 (sqrt (nx s)) <= 1.
Proof. intros H. apply half_one. pose proof (sqrt_bd _ (nx_bd s H)). lra. Qed.
Lemma np_bd s : Rabs s <= 1 -> 1 / 2 <= rnd64 (nx s * sqrt (nx s)) <= 1.
Proof. intros H. apply half_one. pose proof (nx_bd s H). pose proof (sqrt_bd _ (nx_bd s H)). nra. Qed.
Lemma half_lo x : 1 / 2 <= x <= 1 -> bpow radix2 (-1) <= Rabs x.
Proof. intros H. rewrite Rabs_pos_eq by lra. cbn. lra. Qed.
Lemma div_ge a d m : IZR m <= a -> 0 < d <= 1 -> (0 <= m <= 2 ^ 53)%Z -> IZR m <= rnd64 (a / d).
Proof.
  intros A D M. replace (IZR m) with (IZR m * bpow radix2 0) by (cbn; lra). apply rnd_dn; try lia. cbn [bpow]. rewrite Rmult_1_r.
  apply Rle_trans with a; [exact A|]. apply Rmult_le_reg_r with d; [lra|]. unfold Rdiv. rewrite Rmult_assoc, Rinv_l by lra.
  assert (0 <= IZR m) by (apply IZR_le; lia). nra.
Qed.
Lemma nn_lo s h : Rabs s <= 1 -> - bpow radix2 22 <= h -> bpow radix2 20 <= rnd64 (rnd64 (gp_a_f / rnd64 (sqrt (nx s))) + h).
Proof.
  intros H Hh. assert (A : 6378137 <= rnd64 (gp_a_f / rnd64 (sqrt (nx s)))).
  { apply div_ge; [unfold gp_a_f; lra|pose proof (ns_bd s H); lra|lia]. }
  apply rnd64_ge_bpow; [lia|]. change (bpow radix2 22) with 4194304 in Hh. change (bpow radix2 20) with 1048576. lra.
Qed.
Lemma nm_lo s h : Rabs s <= 1 -> - bpow radix2 22 <= h ->
  bpow radix2 20 <= rnd64 (rnd64 (rnd64 (gp_a_f * rnd64 (1 - ne2)) / rnd64 (nx s * sqrt (nx s))) + h).
Proof.
  intros H Hh. pose proof ne2_bd as C. assert (D : 127 / 128 <= rnd64 (1 - ne2)).
  { replace (127 / 128) with (IZR 127 * bpow radix2 (-7)) by (cbn; lra). apply rnd_dn; try lia. cbn. lra. }
  assert (E : 6328000 <= rnd64 (gp_a_f * rnd64 (1 - ne2))).
  { replace 6328000 with (IZR 6328000 * bpow radix2 0) by (cbn; lra). apply rnd_dn; try lia. cbn [bpow]. unfold gp_a_f. lra. }
  assert (A : 6328000 <= rnd64 (rnd64 (gp_a_f * rnd64 (1 - ne2)) / rnd64 (nx s * sqrt (nx s)))).
  { apply div_ge; [exact E|pose proof (np_bd s H); lra|lia]. }
  apply rnd64_ge_bpow; [lia|]. change (bpow radix2 22) with 4194304 in Hh. change (bpow radix2 20) with 1048576. lra.
Qed.
Lemma mul_abs_lo k l x y : (-1074 <= k + l)%Z -> bpow radix2 k <= x -> bpow radix2 l <= Rabs y -> bpow radix2 (k + l) <= Rabs (rnd64 (x * y)).
Proof.
  intros K A B. destruct (Rle_dec 0 y) as [P|P].
  - rewrite Rabs_pos_eq in B by exact P. pose proof (mul_lo k l x y K A B). pose proof (bpow_gt_0 radix2 (k + l)). rewrite Rabs_pos_eq; lra.
  - rewrite Rabs_left in B by lra. pose proof (mul_lo k l x (- y) K A B) as M. rewrite Ropp_mult_distr_r_reverse, rnd64_opp in M.
    pose proof (bpow_gt_0 radix2 (k + l)). rewrite <- Rabs_Ropp, Rabs_pos_eq; lra.
Qed.
Lemma abs_of k x : bpow radix2 k <= x -> bpow radix2 k <= Rabs x.
Proof. intros H. pose proof (bpow_gt_0 radix2 k). rewrite Rabs_pos_eq; lra. Qed.

Lemma rpower15 x : 0 < x -> Rpower x (3 / 2) = x * sqrt x.
Proof. intros H. replace (3 / 2) with (1 + / 2) by lra. rewrite Rpower_plus, Rpower_1, Rpower_sqrt by exact H. reflexivity. Qed.
Definition pow15_of (r : R -> R) (x : R) : R := r (Rpower x (3 / 2)).
Lemma dynamics_same r y dVN gN dt : binary64_in_range r -> bpow radix2 (-200) <= Rabs (rnd64 (cos (vx (fst y)))) -> bpow radix2 (-200) <= Rabs dt ->
  - bpow radix2 22 <= vz (fst y) <= bpow radix2 200 -> vbd 200 (snd y) -> vbd 200 dVN -> vbd 200 gN ->
  strapdownDynamics_f (ops_of r) (pow2_of r) (pow15_of r) y dVN gN dt = strapdownDynamics_f binary64_ops (pow2_of rnd64) (pow15_of rnd64) y dVN gN dt.
Proof.
  intros Hr Hc Hd (Hh & Hh') (v1 & v2 & v3) (d1 & d2 & d3) (g1 & g2 & g3). unfold strapdownDynamics_f.
  cbv zeta. unfold gp_f_f, gp_wE_f. cbn [frnd fsin fcos ops_of binary64_ops]. unfold pow2_of, pow15_of. cbv beta.
  set (la := vx (fst y)) in *. set (h := vz (fst y)) in *. set (vN := vx (snd y)) in *. set (vE := vy (snd y)) in *. set (vD := vz (snd y)) in *.
  pose proof (proj1 (nx_bd _ (abs_rnd_sin la))) as L0. pose proof (half_lo _ (ns_bd _ (abs_rnd_sin la))) as L1. pose proof (half_lo _ (np_bd _ (abs_rnd_sin la))) as L2.
  pose proof (abs_of _ _ (nm_lo _ h (abs_rnd_sin la) Hh)) as L3.
  pose proof (mul_abs_lo 20 (-200) _ _ ltac:(lia) (nn_lo _ h (abs_rnd_sin la) Hh) Hc) as L4. change (20 + -200)%Z with (-180)%Z in L4.
  assert (BH : bd 200 h).
  { unfold bd. apply Rabs_le. pose proof (bpow_le radix2 22 200 ltac:(lia)). lra. }
  clear Hh Hh' Hc. pose proof bd_a as BA. pose proof bd_c298 as BC. pose proof c298_lo as LC. unfold nx, ne2, cf in L0, L1, L2, L3, L4. change (298257222101 / 1000000000) with c298.
  assert (W1 : bd 3 (7292115 / 1000000)) by num 3%Z. assert (W2 : bd 0 (1 / 100000)) by num 0%Z.
  set (w1 := 7292115 / 1000000) in *. set (w2 := 1 / 100000) in *.
  set (a := gp_a_f) in *. set (c := c298) in *. clearbody w1 w2 a c la h vN vE vD.
  assert (Dt : forall x, Rdivc x dt = Ret (x / dt)).
  { intros x. unfold Rdivc. destruct (Req_EM_T dt 0) as [E|E]; [|reflexivity]. rewrite E, Rabs_R0 in Hd. pose proof (bpow_gt_0 radix2 (-200)). lra. }
  rewrite !Dt. clear Dt. cbn [bind].
  repeat ov r Hr. match goal with |- context [Rpower ?v (3 / 2)] => rewrite !(rpower15 v) by lra end. repeat ov r Hr. unfold sqrtc. match goal with |- context [Rlt_dec ?d 0] => destruct (Rlt_dec d 0) end; [reflexivity|]. cbn [bind].
  repeat ov r Hr. unfold Rdivc. 
  repeat (match goal with |- context [Req_EM_T ?d 0] => destruct (Req_EM_T d 0) end; [reflexivity|]; cbn [bind]; repeat ov r Hr).
  reflexivity.
Qed.
