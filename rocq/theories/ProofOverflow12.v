(** No overflow in coarse alignment and in the quaternion of a rotation vector. *)
From Coq Require Import Reals ZArith List Lra Lia Psatz.
From Flocq Require Import Core IEEE754.Binary IEEE754.Bits.
From Verif Require Import Base BaseVec ModelDate ProofDate ModelStrapdownFloat ModelAttitudeFloat ModelCoarseFloat
  SpecFloatOps SpecOverflow ProofVec ProofStrapdownFloat ProofRnd ProofOverflow ProofOverflow2 ProofOverflow3 ProofOverflow9.
Import ListNotations.
Open Scope R_scope.

Lemma rotvec_same r p0 p1 p2 : binary64_in_range r -> bpow radix2 (-480) <= norm (V3 p0 p1 p2) ->
  bd 400 p0 -> bd 400 p1 -> bd 400 p2 -> quat_of_rotvec_f (ops_of r) p0 p1 p2 = quat_of_rotvec_f binary64_ops p0 p1 p2.
Proof.
  intros Hr N B0 B1 B2. pose proof (abs_of _ _ (mag_ge _ N)) as L. unfold quat_of_rotvec_f. cbv zeta.
  cbn [fdot frnd fsin fcos ops_of binary64_ops vx vy vz] in *.
  assert (L2 : bpow radix2 1 <= Rabs 2) by (rewrite Rabs_pos_eq by lra; change (bpow radix2 1) with 2; lra).
  repeat ov r Hr. unfold sqrtc. match goal with |- context [Rlt_dec ?d 0] => destruct (Rlt_dec d 0) end; [reflexivity|]. cbn [bind].
  repeat ov r Hr. unfold Rdivc. match goal with |- context [Req_EM_T ?d 0] => destruct (Req_EM_T d 0) end; [reflexivity|]. cbn [bind].
  repeat ov r Hr. reflexivity.
Qed.
Lemma abs_mul_lo k l x y : (-1074 <= k + l)%Z -> bpow radix2 k <= Rabs x -> bpow radix2 l <= Rabs y -> bpow radix2 (k + l) <= Rabs (rnd64 (x * y)).
Proof.
  intros K A B. destruct (Rle_dec 0 x) as [P|P].
  - rewrite (Rabs_pos_eq x) in A by exact P. now apply mul_abs_lo.
  - rewrite (Rabs_left x) in A by lra. pose proof (mul_abs_lo k l (- x) y K A B) as M. rewrite Ropp_mult_distr_l_reverse, rnd64_opp, Rabs_Ropp in M. exact M.
Qed.
Lemma rnd64_idem x : rnd64 (rnd64 x) = rnd64 x.
Proof. unfold rnd64. apply round_generic; [apply valid_rnd_N|]. apply generic_format_round; [apply FLT_exp_valid; reflexivity|apply valid_rnd_N]. Qed.
Lemma coarse_same r lat wE g aB w : binary64_in_range r -> bpow radix2 (-100) <= Rabs (rnd64 (cos lat)) ->
  bpow radix2 (-50) <= Rabs wE <= bpow radix2 50 -> bpow radix2 (-10) <= Rabs g <= bpow radix2 10 -> vbd 150 aB -> vbd 150 w ->
  coarseAttitudeAlignment_f (ops_of r) lat wE g aB w = coarseAttitudeAlignment_f binary64_ops lat wE g aB w.
Proof.
  intros Hr Hc (W1 & W2) (G1 & G2) (a1 & a2 & a3) (w1 & w2 & w3). change (bd 50 wE) in W2. change (bd 10 g) in G2.
  pose proof (abs_mul_lo (-50) (-100) _ _ ltac:(lia) W1 Hc) as L1. change (-50 + -100)%Z with (-150)%Z in L1.
  pose proof (abs_mul_lo (-10) (-50) _ _ ltac:(lia) G1 W1) as L2. change (-10 + -50)%Z with (-60)%Z in L2.
  pose proof (abs_mul_lo (-60) (-100) _ _ ltac:(lia) L2 Hc) as L3. change (-60 + -100)%Z with (-160)%Z in L3.
  assert (G1' : bpow radix2 (-10) <= Rabs (- g)) by now rewrite Rabs_Ropp.
  pose proof (abs_mul_lo (-160) (-10) _ _ ltac:(lia) L3 G1') as L4. change (-160 + -10)%Z with (-170)%Z in L4.
  pose proof (abs_mul_lo (-170) (-150) _ _ ltac:(lia) L4 L1) as L5. change (-170 + -150)%Z with (-320)%Z in L5.
  unfold coarseAttitudeAlignment_f, minvc_f. cbv zeta. unfold col1. cbn [fdot frnd fsin fcos ops_of binary64_ops m11 m12 m13 m21 m22 m23 m31 m32 m33 vx vy vz].
  pose proof (bd_0 0) as Z0.
  assert (L6 : bpow radix2 (-330) <= Rabs (rnd64 (rnd64 (rnd64 (rnd64 (rnd64 (0 * 0) - rnd64 (rnd64 (- wE * rnd64 (sin lat)) * rnd64 (rnd64 (g * wE) * rnd64 (cos lat)))) * 0) +
     rnd64 (rnd64 (rnd64 (rnd64 (rnd64 (g * wE) * rnd64 (cos lat)) * - g) - rnd64 (0 * 0)) * rnd64 (wE * rnd64 (cos lat)))) +
     rnd64 (rnd64 (rnd64 (0 * rnd64 (- wE * rnd64 (sin lat))) - rnd64 (- g * 0)) * 0)))).
  { repeat (progress rewrite ?Rmult_0_l, ?Rmult_0_r, ?Rminus_0_r, ?Rplus_0_l, ?Rplus_0_r, ?rnd64_0, ?rnd64_idem). eapply Rle_trans; [|exact L5]. apply bpow_le. lia. }
  clear L1 L2 L3 L4 L5 G1 G1' W1 Hc.
  set (z := 0) in *.
  repeat ov r Hr. unfold Rdivc. match goal with |- context [Req_EM_T ?d _] => destruct (Req_EM_T d 0) end; [reflexivity|]. cbn [bind].
  repeat ov r Hr. match goal with |- Ret (true, ?X) = Ret (true, ?Y) => assert (E : X = Y); [|rewrite E; reflexivity] end.
  unfold mmul_f. cbn [fdot ops_of binary64_ops row1 row2 row3 col1 col2 col3 m11 m12 m13 m21 m22 m23 m31 m32 m33 vx vy vz]. repeat ov r Hr. reflexivity.
Qed.
