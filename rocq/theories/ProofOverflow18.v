(** No overflow in the matrices of the error dynamics. *)
From Coq Require Import Reals ZArith List Lra Lia Psatz.
From Flocq Require Import Core.
From Verif Require Import Base BaseVec ModelNavUtils ModelPva ModelDate ProofDate ModelStrapdownFloat ModelFramesFloat ModelGravityFloat ModelCoarseFloat ModelPvaFloat
  SpecFloatOps SpecOverflow ProofRnd ProofOverflow ProofOverflow2 ProofOverflow3 ProofOverflow9 ProofOverflow12 ProofOverflow13.
Import ListNotations.
Open Scope R_scope.

Lemma bd_m2 : bd 1 (- 2). Proof. apply bd_opp, bd_2. Qed.
Lemma ecef_error_same r aE GE RS OE F G : binary64_in_range r -> mbd 400 GE -> mbd 400 OE ->
  ecefErrorDynamics_f (ops_of r) aE GE RS OE F G = ecefErrorDynamics_f binary64_ops aE GE RS OE F G.
Proof.
  intros Hr HG HO. unfold ecefErrorDynamics_f. destruct (negb (is9x9 F)); [reflexivity|]. destruct (negb (is9x9 G)); [reflexivity|]. cbv zeta.
  destruct (skewSymmetric aE) as [[] aX]; [|reflexivity]. cbn [negb].
  destruct (mmul_same r OE OE 400 400 Hr HO HO ltac:(lia)) as (E & B). rewrite E. set (M := mmul_f binary64_ops OE OE) in *. clearbody M. clear E.
  change (400 + 400 + 2)%Z with 802%Z in B. cbn [frnd ops_of binary64_ops].
  assert (E1 : mmap r (mscale (- 2) OE) = mmap rnd64 (mscale (- 2) OE)).
  { destruct OE, HO as ((? & ? & ?) & (? & ? & ?) & (? & ? & ?)). unfold mmap, mscale. cbn in *. pose proof bd_m2. repeat ov r Hr. reflexivity. }
  assert (E2 : mmap r (msub M GE) = mmap rnd64 (msub M GE)).
  { destruct M, B as ((? & ? & ?) & (? & ? & ?) & (? & ? & ?)). destruct GE, HG as ((? & ? & ?) & (? & ? & ?) & (? & ? & ?)). unfold mmap, msub. cbn in *. repeat ov r Hr. reflexivity. }
  rewrite E1, E2. reflexivity.
Qed.

Lemma minv_diag r A B : binary64_in_range r -> bd 250 A -> bd 250 B -> bpow radix2 20 <= Rabs A -> bpow radix2 (-180) <= Rabs B ->
  minvc_f (ops_of r) (M3 A 0 0  0 B 0  0 0 (-1)) = minvc_f binary64_ops (M3 A 0 0  0 B 0  0 0 (-1)) /\
  forall V, minvc_f binary64_ops (M3 A 0 0  0 B 0  0 0 (-1)) = Ret V -> mbd 700 V.
Proof.
  intros Hr BA BB LA LB. unfold minvc_f. cbv zeta. unfold col1. cbn [fdot frnd ops_of binary64_ops m11 m12 m13 m21 m22 m23 m31 m32 m33 vx vy vz].
  pose proof (bd_0 0) as Z0. assert (O : bd 0 (-1)) by apply bd_opp, bd_1.
  assert (L1 : bpow radix2 (-180) <= Rabs (rnd64 (B * -1))) by (apply rnd_abs_lo; [lia|]; replace (B * -1) with (- B) by ring; now rewrite Rabs_Ropp).
  pose proof (abs_mul_lo (-180) 20 _ _ ltac:(lia) L1 LA) as L2. change (-180 + 20)%Z with (-160)%Z in L2.
  assert (L : bpow radix2 (-160) <= Rabs (rnd64 (rnd64 (rnd64 (rnd64 (rnd64 (B * -1) - rnd64 (0 * 0)) * A) + rnd64 (rnd64 (rnd64 (0 * 0) - rnd64 (-1 * 0)) * 0)) +
     rnd64 (rnd64 (rnd64 (0 * 0) - rnd64 (0 * B)) * 0)))).
  { repeat (progress rewrite ?Rmult_0_l, ?Rmult_0_r, ?Rminus_0_r, ?Rplus_0_l, ?Rplus_0_r, ?rnd64_0, ?rnd64_idem). exact L2. }
  clear L1 L2 LA LB. set (z := 0) in L, Z0 |- *. set (o := -1) in *.
  repeat ov r Hr. unfold Rdivc. match goal with |- context [Req_EM_T ?d _] => destruct (Req_EM_T d 0) end; [split; [reflexivity|discriminate]|]. cbn [bind].
  repeat ov r Hr. split; [reflexivity|]. intros V E. injection E as <-. unfold mbd, vbd. cbn [row1 row2 row3 vx vy vz m11 m12 m13 m21 m22 m23 m31 m32 m33].
  repeat split; match goal with H : bd _ ?x |- bd _ ?x => apply (bd_w _ _ _ H); lia end.
Qed.

Lemma nprod_lo s : Rabs s <= 1 ->
  6000000 <= rnd64 (sqrt (rnd64 (rnd64 (gp_a_f / rnd64 (sqrt (nx s))) * rnd64 (rnd64 (gp_a_f * rnd64 (1 - ne2)) / rnd64 (nx s * sqrt (nx s)))))).
Proof.
  intros H. assert (A : 6378137 <= rnd64 (gp_a_f / rnd64 (sqrt (nx s)))).
  { apply div_ge; [unfold gp_a_f; lra|pose proof (ns_bd s H); lra|lia]. }
  pose proof ne2_bd as C. assert (D : 127 / 128 <= rnd64 (1 - ne2)).
  { replace (127 / 128) with (IZR 127 * bpow radix2 (-7)) by (cbn; lra). apply rnd_dn; try lia. cbn. lra. }
  assert (E : 6328000 <= rnd64 (gp_a_f * rnd64 (1 - ne2))).
  { replace 6328000 with (IZR 6328000 * bpow radix2 0) by (cbn; lra). apply rnd_dn; try lia. cbn [bpow]. unfold gp_a_f. lra. }
  assert (B : 6328000 <= rnd64 (rnd64 (gp_a_f * rnd64 (1 - ne2)) / rnd64 (nx s * sqrt (nx s)))).
  { apply div_ge; [exact E|pose proof (np_bd s H); lra|lia]. }
  set (N := rnd64 (gp_a_f / _)) in *. set (M := rnd64 (_ / rnd64 (nx s * _))) in *. clearbody N M.
  assert (P : 36000000000000 <= rnd64 (N * M)).
  { replace 36000000000000 with (IZR 36000000000000 * bpow radix2 0) by (cbn; lra). apply rnd_dn; try lia. cbn [bpow]. nra. }
  replace 6000000 with (IZR 6000000 * bpow radix2 0) by (cbn; lra). apply rnd_dn; try lia. cbn [bpow]. rewrite Rmult_1_r.
  rewrite <- (sqrt_square 6000000) by lra. apply sqrt_le_1_alt. lra.
Qed.
Lemma bd_tan x : bpow radix2 (-100) <= Rabs (rnd64 (cos x)) -> bd 101 (tan x).
Proof.
  intros H. unfold tan. change 101%Z with (0 - -101)%Z. apply bd_div; [apply bd_sin|]. destruct (Rle_dec (bpow radix2 (-101)) (Rabs (cos x))) as [L|L]; [exact L|exfalso].
  assert (B : bd (-101) (cos x)) by (unfold bd; lra). apply (bd_rnd (-101)) in B; [|lia]. unfold bd in B.
  pose proof (bpow_lt radix2 (-101) (-100) ltac:(lia)). lra.
Qed.
Lemma ned_error_same r aN GN RS lla llaDot llaDDot F G : binary64_in_range r -> bpow radix2 (-100) <= Rabs (rnd64 (cos (vx lla))) ->
  - bpow radix2 22 <= vz lla <= bpow radix2 100 -> bd 100 (vx lla) -> vbd 100 llaDot -> vbd 100 llaDDot -> vbd 100 aN -> mbd 100 GN -> mbd 100 RS ->
  nedErrorDynamics_f (ops_of r) (fun x => r (x * x)) (fun x => r (Rpower x (3 / 2))) (fun x => r (sqrt x)) (fun x => r (tan x)) aN GN RS lla llaDot llaDDot F G =
  nedErrorDynamics_f binary64_ops (fun x => rnd64 (x * x)) (fun x => rnd64 (Rpower x (3 / 2))) (fun x => rnd64 (sqrt x)) (fun x => rnd64 (tan x)) aN GN RS lla llaDot llaDDot F G.
Proof.
  intros Hr Hc (Hh & Hh') Hl (v1 & v2 & v3) (w1 & w2 & w3) (d1 & d2 & d3) (_ & _ & (_ & _ & g33)) HR. unfold nedErrorDynamics_f.
  destruct (negb (is9x9 F)); [reflexivity|]. destruct (negb (is9x9 G)); [reflexivity|]. cbn [row3 vz] in g33.
  pose proof (fun A B => minv_diag r A B Hr) as MD. pose proof (fun V (H : mbd 700 V) => mmul_same r V RS 700 100 Hr H HR ltac:(lia)) as MM.
  set (mi := minvc_f (ops_of r)) in *. set (mj := minvc_f binary64_ops) in *. set (mm := mmul_f (ops_of r)) in *. set (mn := mmul_f binary64_ops) in *. clearbody mi mj mm mn.
  cbv zeta. unfold gp_f_f, gp_wE_f. cbn [frnd fsin fcos ops_of binary64_ops].
  set (la := vx lla) in *. set (h := vz lla) in *. set (q1 := vx llaDot) in *. set (q2 := vy llaDot) in *. set (q3 := vz llaDot) in *.
  set (p1 := vx llaDDot) in *. set (p2 := vy llaDDot) in *. set (a1 := vx aN) in *. set (a2 := vy aN) in *. set (a3 := vz aN) in *. set (gg := m33 GN) in *.
  pose proof (bd_tan _ Hc) as BT.
  pose proof (proj1 (nx_bd _ (abs_rnd_sin la))) as L0. pose proof (half_lo _ (ns_bd _ (abs_rnd_sin la))) as L1. pose proof (half_lo _ (np_bd _ (abs_rnd_sin la))) as L2.
  pose proof (abs_of _ _ (nm_lo _ h (abs_rnd_sin la) Hh)) as L3.
  pose proof (mul_abs_lo 20 (-100) _ _ ltac:(lia) (nn_lo _ h (abs_rnd_sin la) Hh) Hc) as L4. change (20 + -100)%Z with (-80)%Z in L4.
  pose proof (nprod_lo _ (abs_rnd_sin la)) as L5.
  match type of L5 with _ <= ?x => assert (L6 : bpow radix2 20 <= rnd64 (x + h)) end.
  { apply rnd64_ge_bpow; [lia|]. change (bpow radix2 22) with 4194304 in Hh. change (bpow radix2 20) with 1048576. lra. }
  pose proof (mul_abs_lo 20 (-100) _ _ ltac:(lia) L6 Hc) as L7. change (20 + -100)%Z with (-80)%Z in L7. apply abs_of in L6. clear L5.
  assert (L8 := L6). rewrite <- Rabs_Ropp in L8.
  assert (BH : bd 100 h).
  { unfold bd. apply Rabs_le. pose proof (bpow_le radix2 22 100 ltac:(lia)). lra. }
  clear Hh Hh' Hc. pose proof bd_a as BA. pose proof bd_c298 as BC. pose proof c298_lo as LC. unfold nx, ne2, cf in L0, L1, L2, L3, L4, L6, L7, L8. change (298257222101 / 1000000000) with c298.
  assert (W1 : bd 3 (7292115 / 1000000)) by num 3%Z. assert (W2 : bd 0 (1 / 100000)) by num 0%Z. assert (W3 : bd 0 0.5) by num 0%Z. pose proof bd_m2 as W4.
  set (u1 := 7292115 / 1000000) in *. set (u2 := 1 / 100000) in *. set (u3 := 0.5) in *. set (u4 := - 2) in *.
  set (tl := tan la) in *. set (a := gp_a_f) in *. set (c := c298) in *. clearbody u1 u2 u3 u4 a c tl la h q1 q2 q3 p1 p2 a1 a2 a3 gg.
  repeat ov r Hr. match goal with |- context [Rpower ?v (3 / 2)] => rewrite !(rpower15 v) by lra end. repeat ov r Hr.
  unfold sqrtc. match goal with |- context [Rlt_dec ?d 0] => destruct (Rlt_dec d 0) end; [reflexivity|]. cbn [bind].
  repeat ov r Hr. unfold Rdivc.
  repeat (match goal with |- context [Req_EM_T ?d 0] => destruct (Req_EM_T d 0) end; [reflexivity|]; cbn [bind]; repeat ov r Hr).
  match goal with |- context [mi (M3 ?A 0 0 0 ?B 0 0 0 (-1))] => destruct (MD A B) as (E & EB) end.
  1-4: first [assumption|match goal with H : bd _ ?x |- bd _ ?x => apply (bd_w _ _ _ H); lia end|eapply Rle_trans; [|eassumption]; apply bpow_le; lia].
  rewrite E. match goal with |- context [mj ?D] => destruct (mj D) as [V| | | |] eqn:EV end; try reflexivity. cbn [bind].
  rewrite (proj1 (MM V (EB V eq_refl))). reflexivity.
Qed.
