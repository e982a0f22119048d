(** No overflow in the conversions from a rotation matrix and from a quaternion,
    in the rotations between frames and in the gravity of a point mass. *)
From Coq Require Import Reals ZArith List Lra Lia Psatz.
From Flocq Require Import Core IEEE754.Binary IEEE754.Bits.
From Verif Require Import Base BaseVec ModelDate ProofDate ModelStrapdownFloat ModelFramesFloat ModelGravityFloat ModelAttitudeFloat ModelEulerFloat
  SpecFloatOps SpecOverflow ProofRnd ProofPi ProofOverflow ProofOverflow2 ProofOverflow3 ProofOverflow9 ProofOverflow12 ProofOverflow13.
Import ListNotations.
Open Scope R_scope.

Lemma bd_quarter : bd (-2) 0.25.
Proof. unfold bd. change (bpow radix2 (-2)) with (/ 4). rewrite Rabs_pos_eq; lra. Qed.
Lemma bd_4 : bd 2 4.
Proof. unfold bd. change (bpow radix2 2) with 4. rewrite Rabs_pos_eq; lra. Qed.
Lemma bd_asin x : bd 1 (asin x).
Proof. pose proof PI_bounds. destruct (asin_bound x). unfold bd. change (bpow radix2 1) with 2. apply Rabs_le. lra. Qed.
Lemma bd_atan x : bd 1 (atan x).
Proof. pose proof PI_bounds. destruct (atan_bound x). unfold bd. change (bpow radix2 1) with 2. apply Rabs_le. lra. Qed.

(** The square root of a positive double is at least 2^-537. *)
Lemma root_lo x : ~ rnd64 x < 0 -> rnd64 x <> 0 -> bpow radix2 (-537) <= rnd64 (sqrt (rnd64 x)).
Proof.
  intros N Z. assert (P : 0 < rnd64 x) by lra.
  assert (L : bpow radix2 (-1074) <= rnd64 x).
  { apply (generic_format_ge_bpow radix2 (FLT_exp (-1074) 53)); [intros e; unfold FLT_exp; lia|exact P|].
    unfold rnd64. apply generic_format_round; [apply FLT_exp_valid; reflexivity|apply valid_rnd_N]. }
  apply rnd64_ge_bpow; [lia|]. rewrite <- (sqrt_square (bpow radix2 (-537))) by apply bpow_ge_0. apply sqrt_le_1_alt.
  rewrite <- bpow_plus. exact L.
Qed.
Lemma four_lo x : bpow radix2 (-537) <= x -> bpow radix2 (-535) <= Rabs (rnd64 (4 * x)).
Proof.
  intros H. apply rnd_lo; [lia|]. change (-535)%Z with (2 + -537)%Z. rewrite bpow_plus. change (bpow radix2 2) with 4. pose proof (bpow_gt_0 radix2 (-537)). lra.
Qed.

Lemma div_lo x : ~ rnd64 x < 0 -> rnd64 (4 * rnd64 (sqrt (rnd64 x))) <> 0 -> bpow radix2 (-535) <= Rabs (rnd64 (4 * rnd64 (sqrt (rnd64 x)))).
Proof.
  intros N Z. apply four_lo. apply root_lo; [exact N|]. intros E. apply Z. rewrite E, sqrt_0, rnd64_0, Rmult_0_r. apply rnd64_0.
Qed.
Ltac branch r Hr := unfold sqrtc; match goal with |- context [Rlt_dec ?d 0] => destruct (Rlt_dec d 0) as [?|NN] end; [reflexivity|]; cbn [bind];
  repeat ov r Hr; unfold Rdivc; match goal with |- context [Req_EM_T ?d 0] => destruct (Req_EM_T d 0) as [?|NZ] end; [reflexivity|]; cbn [bind];
  match goal with A : ~ _ < 0, Z : ?d <> 0 |- _ => assert (bpow radix2 (-535) <= Rabs d) by exact (div_lo _ A Z) end; repeat ov r Hr; reflexivity.
Lemma quat_of_dcm_same r R : binary64_in_range r -> mbd 100 R -> quat_of_dcm_f (ops_of r) (fun x => r (x * x)) R = quat_of_dcm_f binary64_ops pow2_64 R.
Proof.
  intros Hr ((a1 & a2 & a3) & (b1 & b2 & b3) & (c1 & c2 & c3)). pose proof bd_quarter as Q. pose proof bd_4 as Q4.
  unfold quat_of_dcm_f. cbv zeta. unfold pow2_64. cbn [frnd ops_of binary64_ops]. cbn [row1 row2 row3 vx vy vz] in *.
  destruct R as [r11 r12 r13 r21 r22 r23 r31 r32 r33]. cbn [m11 m12 m13 m21 m22 m23 m31 m32 m33] in *. set (q := 0.25) in *.
  repeat ov r Hr.
  match goal with |- context [if ?c then _ else _] => destruct c end; [branch r Hr|].
  match goal with |- context [if ?c then _ else _] => destruct c end; [branch r Hr|].
  match goal with |- context [if ?c then _ else _] => destruct c end; branch r Hr.
Qed.

Lemma micro_lo : bpow radix2 (-20) <= rnd64 (1 / 1000000).
Proof. apply rnd64_ge_bpow; [lia|]. change (bpow radix2 (-20)) with (/ 1048576). lra. Qed.
Lemma rotvec_of_quat_same r q0 q1 q2 q3 : binary64_in_range r -> bd 300 q1 -> bd 300 q2 -> bd 300 q3 ->
  rotvec_of_quat_f (ops_of r) (fun x => r (asin x)) q0 q1 q2 q3 = rotvec_of_quat_f binary64_ops asin_64 q0 q1 q2 q3.
Proof.
  intros Hr B1 B2 B3. unfold rotvec_of_quat_f, asin_64. cbv zeta. cbn [fdot frnd ops_of binary64_ops].
  assert (M : bd 0 (1 / 1000000)) by num 0%Z. pose proof micro_lo as ML. rewrite !(same r Hr _ _ M) by lia.
  assert (B : exists p1 p2 p3, (if Rlt_dec q0 0 then V3 (- q1) (- q2) (- q3) else V3 q1 q2 q3) = V3 p1 p2 p3 /\ bd 300 p1 /\ bd 300 p2 /\ bd 300 p3).
  { destruct (Rlt_dec q0 0); eexists _, _, _; (split; [reflexivity|]); repeat split; try apply bd_opp; assumption. }
  destruct B as (p1 & p2 & p3 & -> & P1 & P2 & P3). cbn [vx vy vz].
  repeat ov r Hr. unfold sqrtc. match goal with |- context [Rlt_dec ?d 0] => destruct (Rlt_dec d 0) end; [reflexivity|]. cbn [bind].
  repeat ov r Hr. match goal with |- context [Rlt_dec ?c ?d] => destruct (Rlt_dec c d) as [G|] end; [|reflexivity].
  match type of G with _ < ?d => assert (L : bpow radix2 (-20) <= Rabs d) by (pose proof (bpow_gt_0 radix2 (-20)); rewrite Rabs_pos_eq; lra) end.
  unfold Rdivc. match goal with |- context [Req_EM_T ?d 0] => destruct (Req_EM_T d 0) end; [reflexivity|]. cbn [bind].
  unfold asinc_f. repeat match goal with |- context [Rlt_dec ?c ?d] => destruct (Rlt_dec c d) end; try reflexivity. cbn [bind].
  match goal with |- context [asin ?x] => pose proof (bd_asin x) end. assert (T : bd 1 (-2)) by apply bd_opp, bd_2.
  repeat ov r Hr. reflexivity.
Qed.

Lemma nano_lo : bpow radix2 (-30) <= rnd64 (1 / 1000000000).
Proof. apply rnd64_ge_bpow; [lia|]. change (bpow radix2 (-30)) with (/ 1073741824). lra. Qed.
Lemma dcm2Euler_same r A e0 : binary64_in_range r -> mbd 900 A ->
  dcm2Euler_f (ops_of r) (fun x => r (atan x)) (fun x => r (asin x)) A e0 = dcm2Euler_f binary64_ops atan_64 asin_64 A e0.
Proof.
  intros Hr ((a1 & a2 & a3) & (b1 & b2 & b3) & (c1 & c2 & c3)). unfold dcm2Euler_f, atan_64, asin_64. cbv zeta. cbn [frnd ops_of binary64_ops]. cbn [row1 row2 row3 vx vy vz] in *.
  assert (M : bd 0 (1 / 1000000000)) by num 0%Z. pose proof nano_lo as ML. rewrite !(same r Hr _ _ M) by lia.
  unfold Rltb'. destruct (Rlt_dec (Rabs (m11 A)) _) as [|L1]; [reflexivity|]. destruct (Rlt_dec (Rabs (m33 A)) _) as [|L3]; [reflexivity|]. cbn [orb].
  match goal with |- context [if ?c then _ else _] => destruct c end; [reflexivity|].
  assert (L1' : bpow radix2 (-30) <= Rabs (m11 A)) by lra. assert (L3' : bpow radix2 (-30) <= Rabs (m33 A)) by lra.
  unfold Rdivc. destruct (Req_EM_T (m33 A) 0); [reflexivity|]. cbn [bind]. destruct (Req_EM_T (m11 A) 0); [reflexivity|]. cbn [bind].
  pose proof bd_PI as BP. repeat ov r Hr.
  repeat match goal with |- context [r (atan ?x)] => rewrite !(same r Hr 1 _ (bd_atan x)) by lia; pose proof (bd_rnd 1 _ ltac:(lia) (bd_atan x)) end.
  rewrite !(same r Hr 1 _ (bd_asin (m13 A))) by lia. repeat ov r Hr. reflexivity.
Qed.

Lemma ecef2Ned_same r lat lon R0 : binary64_in_range r -> computeREcef2Ned_f (ops_of r) lat lon R0 = computeREcef2Ned_f binary64_ops lat lon R0.
Proof.
  intros Hr. unfold computeREcef2Ned_f. cbv zeta. cbn [frnd fsin fcos ops_of binary64_ops]. destruct (negb _); [reflexivity|]. repeat ov r Hr. reflexivity.
Qed.
Lemma ned2Ecef_same r lat lon R0 : binary64_in_range r -> computeRNed2Ecef_f (ops_of r) lat lon R0 = computeRNed2Ecef_f binary64_ops lat lon R0.
Proof.
  intros Hr. unfold computeRNed2Ecef_f. cbv zeta. cbn [frnd fsin fcos ops_of binary64_ops]. destruct (negb _); [reflexivity|]. repeat ov r Hr. reflexivity.
Qed.

Lemma simple_same r p : binary64_in_range r -> vbd 300 p ->
  bpow radix2 (-200) <= Rabs (vx p) \/ bpow radix2 (-200) <= Rabs (vy p) \/ bpow radix2 (-200) <= Rabs (vz p) ->
  simpleGravity_f (ops_of r) p = simpleGravity_f binary64_ops p.
Proof.
  intros Hr (p1 & p2 & p3) H. unfold simpleGravity_f, gp_G_f, gp_mE_f. cbv zeta. cbn [fdot frnd ops_of binary64_ops].
  assert (L : bpow radix2 (-400) <= rnd64 (rnd64 (rnd64 (vx p * vx p) + rnd64 (vy p * vy p)) + rnd64 (vz p * vz p))).
  { pose proof (sq_ge0 (vx p)). pose proof (sq_ge0 (vy p)). pose proof (sq_ge0 (vz p)).
    assert (S : 0 <= rnd64 (rnd64 (vx p * vx p) + rnd64 (vy p * vy p))) by (apply rnd64_ge0; lra).
    destruct H as [H|[H|H]]; apply (sq_ge (-200)) in H; try lia; change (-200 + -200)%Z with (-400)%Z in H.
    - apply acc; try lia; try assumption. left. apply acc; try lia; try assumption. now left.
    - apply acc; try lia; try assumption. left. apply acc; try lia; try assumption. now right.
    - apply acc; try lia; try assumption. now right. }
  assert (L' : bpow radix2 (-400) <= Rabs (rnd64 (rnd64 (rnd64 (vx p * vx p) + rnd64 (vy p * vy p)) + rnd64 (vz p * vz p)))) by (eapply Rle_trans; [exact L|apply Rle_abs]).
  assert (N : bpow radix2 (-200) <= Rabs (rnd64 (sqrt (rnd64 (rnd64 (rnd64 (vx p * vx p) + rnd64 (vy p * vy p)) + rnd64 (vz p * vz p)))))).
  { apply rnd_lo; [lia|]. rewrite <- (sqrt_square (bpow radix2 (-200))) by apply bpow_ge_0. apply sqrt_le_1_alt. rewrite <- bpow_plus. exact L. }
  set (g := 6674 / 1000) in *. set (e := 1 / 100000000000) in *. set (m := 5972 / 1000) in *. set (k := 1000000000000000000000000) in *.
  assert (BG : bd 3 g) by (unfold g; num 3%Z). assert (BE : bd 0 e) by (unfold e; num 0%Z). assert (BM : bd 3 m) by (unfold m; num 3%Z). assert (BK : bd 80 k) by (unfold k; num 80%Z).
  repeat ov r Hr. unfold Rdivc at 1 5. match goal with |- context [Req_EM_T ?d 0] => destruct (Req_EM_T d 0) end; [reflexivity|]. cbn [bind].
  unfold sqrtc. match goal with |- context [Rlt_dec ?d 0] => destruct (Rlt_dec d 0) end; [reflexivity|]. cbn [bind].
  repeat ov r Hr. unfold Rdivc. match goal with |- context [Req_EM_T ?d 0] => destruct (Req_EM_T d 0) end; [reflexivity|]. cbn [bind].
  repeat ov r Hr. reflexivity.
Qed.

Lemma mbd_in k A : (forall x, In x [m11 A; m12 A; m13 A; m21 A; m22 A; m23 A; m31 A; m32 A; m33 A] -> Rabs x <= bpow radix2 k) -> mbd k A.
Proof. intros H. unfold mbd, vbd, bd. cbn [row1 row2 row3 vx vy vz]. repeat split; apply H; cbn; tauto. Qed.
Lemma conversions_case : (forall x, In x [0; 1; 0; -1; 0; 0; 0; 0; 1] -> Rabs x <= bpow radix2 100) /\
  bpow radix2 (-200) <= Rabs (vx (V3 6378137 0 0)) /\ quat_of_dcm_f binary64_ops pow2_64 (M3 (-1) 0 0 0 (-1) 0 0 0 1) <> NonFinite.
Proof.
  split; [|split].
  - intros x H. pose proof (bpow_ge_0 radix2 100). assert (1 <= bpow radix2 100) by (change 1 with (bpow radix2 0); apply bpow_le; lia).
    cbn in H. repeat (destruct H as [<-|H]; [unfold Rabs; destruct (Rcase_abs _); lra|]). contradiction.
  - cbn [vx]. rewrite Rabs_pos_eq by lra. apply Rle_trans with 1; [change 1 with (bpow radix2 0); apply bpow_le; lia|lra].
  - unfold quat_of_dcm_f. cbv zeta. cbn [frnd binary64_ops m11 m12 m13 m21 m22 m23 m31 m32 m33].
    replace (1 + -1) with 0 by ring. replace (1 - -1) with 2 by ring.
    assert (E : forall m, (Z.abs m <= 2 ^ 53)%Z -> rnd64 (IZR m) = IZR m) by (intros m K; pose proof (rnd64_exact m 0 ltac:(lia) K) as Q; cbn [bpow] in Q; rewrite Rmult_1_r in Q; exact Q).
    repeat first [rewrite (E 0%Z) by lia|rewrite (E 2%Z) by lia|rewrite (E 1%Z) by lia|rewrite (E 4%Z) by lia|rewrite (E (-1)%Z) by lia
      |progress replace (0 + -1) with (-1) by ring|progress replace (-1 + 1) with 0 by ring|progress replace (0 - -1) with 1 by ring|progress replace (1 - 1) with 0 by ring
      |progress replace (2 + -1) with 1 by ring|progress replace (2 - -1) with 3 by ring|progress replace (3 + 1) with 4 by ring|rewrite (E 3%Z) by lia
      |progress replace (0.25 * 0) with 0 by ring|progress replace (0.25 * 4) with 1 by lra].
    unfold Rltb'. repeat (destruct (Rlt_dec _ _); try lra). cbn [andb]. unfold sqrtc. destruct (Rlt_dec 1 0); [lra|]. cbn [bind]. rewrite sqrt_1, (E 1%Z), Rmult_1_r, (E 4%Z) by lia.
    unfold Rdivc. destruct (Req_EM_T 4 0); [lra|]. cbn [bind]. discriminate.
Qed.
