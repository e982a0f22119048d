(** Rounding errors of the matrix to quaternion conversion. *)
From Coq Require Import Reals ZArith List Bool Lra Lia Psatz.
From Flocq Require Import Core.
From Verif Require Import Base BaseVec SpecRot ModelAttitude ModelDate ModelGuardFloat ModelStrapdownFloat ModelFramesFloat ModelAttitudeFloat SpecFloatOps
  ProofVec ProofAttitude ProofPi ProofDate ProofGuardFloat ProofStrapdownFloat ProofStrapdownFloat2 ProofFramesFloat ProofGravityFloat.
Import ListNotations.
Open Scope R_scope.

Section Quat.
Variable F : FloatOps.
Hypothesis HF : float_ok F.
Variable pow2 : R -> R.
Hypothesis HP : pow2_ok pow2.
Variables a b c d k0 : R.
Hypothesis U1 : n2 a b c d = 1.
Variable A : mat3.
Hypothesis HA : near (k0 * u64) A (dcm a b c d).
Hypothesis K0 : 0 <= k0 <= 100000000.
Let r := frnd F.
Ltac bnd := lazymatch goal with
  | H : ap ?x ?y _ _ |- ap ?x ?y _ _ => exact H
  | |- ap (frnd _ _) _ _ _ => eapply (ap_rnd F HF); bnd
  | |- ap (_ * _) (_ * _) _ _ => eapply ap_mul; [bnd|bnd]
  | |- ap (_ + _) (_ + _) _ _ => eapply ap_add; [bnd|bnd]
  | |- ap (_ - _) (_ - _) _ _ => eapply ap_sub; [bnd|bnd]
  | |- ap ?x ?x _ _ => apply ap_const; lra end.

Lemma sq_le : a * a <= 1 /\ b * b <= 1 /\ c * c <= 1 /\ d * d <= 1.
Proof. unfold n2 in U1. pose proof (Rle_0_sqr a). pose proof (Rle_0_sqr b). pose proof (Rle_0_sqr c). pose proof (Rle_0_sqr d). unfold Rsqr in *. lra. Qed.
Ltac nn := unfold n2 in U1; pose proof (Rle_0_sqr a); pose proof (Rle_0_sqr b); pose proof (Rle_0_sqr c); pose proof (Rle_0_sqr d);
  pose proof (Rle_0_sqr (a + b)); pose proof (Rle_0_sqr (a - b)); pose proof (Rle_0_sqr (a + c)); pose proof (Rle_0_sqr (a - c));
  pose proof (Rle_0_sqr (a + d)); pose proof (Rle_0_sqr (a - d)); pose proof (Rle_0_sqr (b + c)); pose proof (Rle_0_sqr (b - c));
  pose proof (Rle_0_sqr (b + d)); pose proof (Rle_0_sqr (b - d)); pose proof (Rle_0_sqr (c + d)); pose proof (Rle_0_sqr (c - d)); unfold Rsqr in *.
Lemma ent : ap (m11 A) (a*a + b*b - c*c - d*d) k0 1 /\ ap (m12 A) (2 * (b*c + a*d)) k0 1 /\ ap (m13 A) (2 * (b*d - a*c)) k0 1 /\
  ap (m21 A) (2 * (b*c - a*d)) k0 1 /\ ap (m22 A) (a*a - b*b + c*c - d*d) k0 1 /\ ap (m23 A) (2 * (c*d + a*b)) k0 1 /\
  ap (m31 A) (2 * (b*d + a*c)) k0 1 /\ ap (m32 A) (2 * (c*d - a*b)) k0 1 /\ ap (m33 A) (a*a - b*b - c*c + d*d) k0 1.
Proof.
  destruct HA as ((H11 & H12 & H13) & (H21 & H22 & H23) & (H31 & H32 & H33)). unfold dcm in *. rewrite U1, Rinv_1 in *. cbn -[u64] in *. rewrite !Rmult_1_r in *.
  nn. repeat (split; [|]); try assumption; apply Rabs_le; lra.
Qed.
Let s0 := r (0.25 * r (r (r (1 + m11 A) + m22 A) + m33 A)).
Let s1 := r (0.25 * r (r (r (1 + m11 A) - m22 A) - m33 A)).
Let s2 := r (0.25 * r (r (r (1 - m11 A) + m22 A) - m33 A)).
Let s3 := r (0.25 * r (r (r (1 - m11 A) - m22 A) + m33 A)).
Definition kq : R := 3 / 4 * k0 + 4 + k0 / 1000.
Lemma squares : ap s0 (a * a) kq 1 /\ ap s1 (b * b) kq 1 /\ ap s2 (c * c) kq 1 /\ ap s3 (d * d) kq 1.
Proof.
  destruct ent as (E11 & _ & _ & _ & E22 & _ & _ & _ & E33). destruct sq_le as (A1 & A2 & A3 & A4).
  pose proof (Rle_0_sqr a) as B1. pose proof (Rle_0_sqr b) as B2. pose proof (Rle_0_sqr c) as B3. pose proof (Rle_0_sqr d) as B4. unfold Rsqr in *.
  unfold n2 in U1.
  assert (X0 : ap s0 (0.25 * (1 + (a*a + b*b - c*c - d*d) + (a*a - b*b + c*c - d*d) + (a*a - b*b - c*c + d*d))) kq 4) by (unfold s0, r, kq; eapply ap_le; [bnd|num|num]).
  assert (X1 : ap s1 (0.25 * (1 + (a*a + b*b - c*c - d*d) - (a*a - b*b + c*c - d*d) - (a*a - b*b - c*c + d*d))) kq 4) by (unfold s1, r, kq; eapply ap_le; [bnd|num|num]).
  assert (X2 : ap s2 (0.25 * (1 - (a*a + b*b - c*c - d*d) + (a*a - b*b + c*c - d*d) - (a*a - b*b - c*c + d*d))) kq 4) by (unfold s2, r, kq; eapply ap_le; [bnd|num|num]).
  assert (X3 : ap s3 (0.25 * (1 - (a*a + b*b - c*c - d*d) - (a*a - b*b + c*c - d*d) + (a*a - b*b - c*c + d*d))) kq 4) by (unfold s3, r, kq; eapply ap_le; [bnd|num|num]).
  destruct X0 as (X0 & _), X1 as (X1 & _), X2 as (X2 & _), X3 as (X3 & _).
  match type of X0 with Rabs (_ - ?y) <= _ => replace y with (a * a) in X0 by lra end.
  match type of X1 with Rabs (_ - ?y) <= _ => replace y with (b * b) in X1 by lra end.
  match type of X2 with Rabs (_ - ?y) <= _ => replace y with (c * c) in X2 by lra end.
  match type of X3 with Rabs (_ - ?y) <= _ => replace y with (d * d) in X3 by lra end.
  unfold ap. rewrite !(Rabs_right (_ * _)) by lra. lra.
Qed.
Lemma pick s s' y y' : ap s y kq 1 -> ap s' y' kq 1 -> y' + 2 * kq * u64 < y -> Rltb' s' s = true /\ Rltb' s s' = false.
Proof.
  intros (H1 & _) (H2 & _) L. apply Rabs_le_inv in H1. apply Rabs_le_inv in H2. unfold Rltb'.
  destruct (Rlt_dec s' s), (Rlt_dec s s'); auto; exfalso; lra.
Qed.
(** The chosen component [x >= 1/2] and the factor 1 / (4 x). *)
Lemma root s x : ap s (x * x) kq 1 -> 1 / 2 <= x <= 1 ->
  0 <= s /\ r (4 * r (sqrt s)) <> 0 /\ ap (r (sqrt s)) x (16 / 10 * k0 + 10) 1 /\ ap (r (1 / r (4 * r (sqrt s)))) (1 / (4 * x)) (17 / 10 * k0 + 13) (1 / 2).
Proof.
  intros H X. destruct (ap_sqrt s (x * x) kq 1 (1 / 2) H) as (S0 & S1); [lra|nra|lra|unfold kq; num|].
  rewrite sqrt_square in S1 by lra. split; [exact S0|]. apply apM with (M' := 1) in S1; [|rewrite Rabs_right; lra].
  assert (S2 : ap (r (sqrt s)) x (16 / 10 * k0 + 10) 1) by (unfold r; eapply ap_le; [bnd| |]; unfold kq; num).
  assert (S3 : ap (r (4 * r (sqrt s))) (4 * x) (65 / 10 * k0 + 45) 4) by (unfold r in *; eapply ap_le; [bnd| |]; num).
  destruct (ap_div 1 1 0 1 _ _ _ _ 2 (ap_const 1 ltac:(lra)) S3) as (N & D); [lra|rewrite Rabs_right; lra|num|].
  split; [exact N|]. split; [exact S2|].
  unfold r in *. eapply ap_le; [eapply (ap_rnd F HF); exact D| |]; num.
Qed.
Lemma side t y k x : ap t y (2 * k0 + 3) 2 -> ap k (1 / (4 * x)) (17 / 10 * k0 + 13) (1 / 2) -> 1 / 2 <= x -> forall z, y = 4 * x * z -> Rabs (r (t * k) - z) <= (14 * k0 + 120) * u64.
Proof.
  intros H1 H2 X z E. pose proof (ap_rnd F HF _ _ _ _ (ap_mul _ _ _ _ _ _ _ _ H1 H2)) as (D & _). fold r in D.
  replace (y * (1 / (4 * x))) with z in D by (subst y; field; lra). pose proof u64_bounds. eapply Rle_trans; [exact D|]. apply Rmult_le_compat_r; [lra|].
  assert ((2 * k0 + 3) * ((17 / 10 * k0 + 13) * e15) <= k0 + 1) by (unfold e15; nra). unfold e15, e20 in *. lra.
Qed.
Lemma main_c q k x : ap q x (16 / 10 * k0 + 10) 1 -> ap k (1 / (4 * x)) (17 / 10 * k0 + 13) (1 / 2) -> 1 / 2 <= x -> Rabs (r (r (4 * pow2 q) * k) - x) <= (14 * k0 + 120) * u64.
Proof.
  intros H1 H2 X. assert (P : ap (pow2 q) (x * x) (33 / 10 * k0 + 24) 1).
  { eapply ap_le; [apply (ap_pow2 pow2 HP _ _ _ _ H1); lra| |lra]. assert ((16 / 10 * k0 + 10) * ((16 / 10 * k0 + 10) * e15) <= k0 / 100 + 1 / 2) by (unfold e15; nra). unfold e15, e20 in *. lra. }
  assert (Q : ap (r (4 * pow2 q)) (4 * (x * x)) (133 / 10 * k0 + 101) 4) by (unfold r; eapply ap_le; [bnd| |]; num).
  pose proof (ap_rnd F HF _ _ _ _ (ap_mul _ _ _ _ _ _ _ _ Q H2)) as (D & _). fold r in D.
  replace (4 * (x * x) * (1 / (4 * x))) with x in D by (field; lra). pose proof u64_bounds. eapply Rle_trans; [exact D|]. apply Rmult_le_compat_r; [lra|].
  assert ((133 / 10 * k0 + 101) * ((17 / 10 * k0 + 13) * e15) <= k0 / 100 + 1) by (unfold e15; nra). unfold e15, e20 in *. lra.
Qed.
Definition close4 (l m : list R) : Prop := Forall2 (fun x y => Rabs (x - y) <= (14 * k0 + 120) * u64) l m.
Definition largest (y : R) (l : list R) : Prop := Forall (fun z => z * z + (2 * k0 + 8) * u64 < y * y) l.
Lemma margin y z : z * z + (2 * k0 + 8) * u64 < y * y -> z * z + 2 * kq * u64 < y * y.
Proof. intros H. pose proof u64_bounds. assert (2 * kq * u64 <= (2 * k0 + 8) * u64) by (apply Rmult_le_compat_r; [lra|unfold kq; lra]). lra. Qed.
Lemma sign_of y : exists s, (s = 1 \/ s = -1) /\ 0 <= s * y /\ s * y * (s * y) = y * y /\ s * s = 1.
Proof. destruct (Rle_lt_dec 0 y); [exists 1|exists (-1)]; (split; [auto|]); repeat split; try lra; ring. Qed.
Lemma biggest y z1 z2 z3 : largest y [z1; z2; z3] -> y * y + z1 * z1 + z2 * z2 + z3 * z3 = 1 -> 1 / 4 <= y * y <= 1.
Proof.
  intros H E. inversion H as [|? ? L1 H1]; subst. inversion H1 as [|? ? L2 H2]; subst. inversion H2 as [|? ? L3 _]; subst.
  pose proof u64_bounds. assert (0 <= (2 * k0 + 8) * u64) by nra.
  pose proof (Rle_0_sqr z1). pose proof (Rle_0_sqr z2). pose proof (Rle_0_sqr z3). unfold Rsqr in *. lra.
Qed.
Lemma half_le x : 0 <= x -> 1 / 4 <= x * x <= 1 -> 1 / 2 <= x <= 1.
Proof. intros P (L & H). split; [apply Rnot_lt_le; intros Q; nra|apply Rnot_lt_le; intros Q; nra]. Qed.
Ltac ent2 E1 E2 := unfold r; eapply ap_le; [eapply (ap_rnd F HF); lazymatch goal with |- ap (_ - _) _ _ _ => eapply ap_sub; [exact E1|exact E2] | _ => eapply ap_add; [exact E1|exact E2] end| |]; num.
Ltac fs :=
  change (r (0.25 * r (r (r (1 + m11 A) + m22 A) + m33 A))) with s0; change (r (0.25 * r (r (r (1 + m11 A) - m22 A) - m33 A))) with s1;
  change (r (0.25 * r (r (r (1 - m11 A) + m22 A) - m33 A))) with s2; change (r (0.25 * r (r (r (1 - m11 A) - m22 A) + m33 A))) with s3.
Lemma quat_float0 : largest a [b; c; d] -> exists s, (s = 1 \/ s = -1) /\ 0 <= s * a /\ exists q, quat_of_dcm_f F pow2 A = Ret q /\ close4 q [s * a; s * b; s * c; s * d].
Proof.
  intros L. pose proof (biggest _ _ _ _ L ltac:(unfold n2 in U1; lra)) as Q. inversion L as [|? ? L1 H1]; subst. inversion H1 as [|? ? L2 H2]; subst. inversion H2 as [|? ? L3 _]; subst.
  destruct squares as (S0 & S1 & S2 & S3). destruct (pick _ _ _ _ S0 S1 (margin _ _ L1)) as (B1 & _). destruct (pick _ _ _ _ S0 S2 (margin _ _ L2)) as (B2 & _). destruct (pick _ _ _ _ S0 S3 (margin _ _ L3)) as (B3 & _).
  destruct (sign_of a) as (s & Hs & P & Sq & Ss). exists s. split; [exact Hs|]. split; [exact P|].
  assert (X := half_le (s * a) P ltac:(lra)). rewrite <- Sq in S0. destruct (root s0 (s * a) S0 X) as (N0 & N1 & R1 & R2).
  destruct ent as (E11 & E12 & E13 & E21 & E22 & E23 & E31 & E32 & E33).
  unfold quat_of_dcm_f. cbv beta zeta. change (frnd F) with r. fs. rewrite B1, B2, B3. cbn [andb]. unfold sqrtc. destruct (Rlt_dec s0 0); [lra|]. cbn [bind]. rewrite Rdivc_ok by exact N1. cbn [bind].
  eexists. split; [reflexivity|]. unfold close4. repeat (apply Forall2_cons || apply Forall2_nil).
  - eapply main_c; [exact R1|exact R2|lra].
  - eapply side; [ent2 E23 E32|exact R2|lra|]. replace (4 * (s * a) * (s * b)) with (s * s * (4 * a * b)) by ring. rewrite Ss. ring.
  - eapply side; [ent2 E31 E13|exact R2|lra|]. replace (4 * (s * a) * (s * c)) with (s * s * (4 * a * c)) by ring. rewrite Ss. ring.
  - eapply side; [ent2 E12 E21|exact R2|lra|]. replace (4 * (s * a) * (s * d)) with (s * s * (4 * a * d)) by ring. rewrite Ss. ring.
Qed.
Lemma quat_float1 : largest b [a; c; d] -> exists s, (s = 1 \/ s = -1) /\ 0 <= s * b /\ exists q, quat_of_dcm_f F pow2 A = Ret q /\ close4 q [s * a; s * b; s * c; s * d].
Proof.
  intros L. pose proof (biggest _ _ _ _ L ltac:(unfold n2 in U1; lra)) as Q. inversion L as [|? ? L1 H1]; subst. inversion H1 as [|? ? L2 H2]; subst. inversion H2 as [|? ? L3 _]; subst.
  destruct squares as (S0 & S1 & S2 & S3). destruct (pick _ _ _ _ S1 S0 (margin _ _ L1)) as (B1 & B1'). destruct (pick _ _ _ _ S1 S2 (margin _ _ L2)) as (B2 & _). destruct (pick _ _ _ _ S1 S3 (margin _ _ L3)) as (B3 & _).
  destruct (sign_of b) as (s & Hs & P & Sq & Ss). exists s. split; [exact Hs|]. split; [exact P|].
  assert (X := half_le (s * b) P ltac:(lra)). rewrite <- Sq in S1. destruct (root s1 (s * b) S1 X) as (N0 & N1 & R1 & R2).
  destruct ent as (E11 & E12 & E13 & E21 & E22 & E23 & E31 & E32 & E33).
  unfold quat_of_dcm_f. cbv beta zeta. change (frnd F) with r. fs. rewrite B1', B1, B2, B3. cbn [andb]. unfold sqrtc. destruct (Rlt_dec s1 0); [lra|]. cbn [bind]. rewrite Rdivc_ok by exact N1. cbn [bind].
  eexists. split; [reflexivity|]. unfold close4. repeat (apply Forall2_cons || apply Forall2_nil).
  - eapply side; [ent2 E23 E32|exact R2|lra|]. replace (4 * (s * b) * (s * a)) with (s * s * (4 * a * b)) by ring. rewrite Ss. ring.
  - eapply main_c; [exact R1|exact R2|lra].
  - eapply side; [ent2 E12 E21|exact R2|lra|]. replace (4 * (s * b) * (s * c)) with (s * s * (4 * b * c)) by ring. rewrite Ss. ring.
  - eapply side; [ent2 E31 E13|exact R2|lra|]. replace (4 * (s * b) * (s * d)) with (s * s * (4 * b * d)) by ring. rewrite Ss. ring.
Qed.
Lemma quat_float2 : largest c [a; b; d] -> exists s, (s = 1 \/ s = -1) /\ 0 <= s * c /\ exists q, quat_of_dcm_f F pow2 A = Ret q /\ close4 q [s * a; s * b; s * c; s * d].
Proof.
  intros L. pose proof (biggest _ _ _ _ L ltac:(unfold n2 in U1; lra)) as Q. inversion L as [|? ? L1 H1]; subst. inversion H1 as [|? ? L2 H2]; subst. inversion H2 as [|? ? L3 _]; subst.
  destruct squares as (S0 & S1 & S2 & S3). destruct (pick _ _ _ _ S2 S0 (margin _ _ L1)) as (B1 & B1'). destruct (pick _ _ _ _ S2 S1 (margin _ _ L2)) as (B2 & B2'). destruct (pick _ _ _ _ S2 S3 (margin _ _ L3)) as (B3 & _).
  destruct (sign_of c) as (s & Hs & P & Sq & Ss). exists s. split; [exact Hs|]. split; [exact P|].
  assert (X := half_le (s * c) P ltac:(lra)). rewrite <- Sq in S2. destruct (root s2 (s * c) S2 X) as (N0 & N1 & R1 & R2).
  destruct ent as (E11 & E12 & E13 & E21 & E22 & E23 & E31 & E32 & E33).
  unfold quat_of_dcm_f. cbv beta zeta. change (frnd F) with r. fs. rewrite B1', B2', !andb_false_r. cbn [andb]. rewrite B1, B2, B3. cbn [andb]. unfold sqrtc. destruct (Rlt_dec s2 0); [lra|]. cbn [bind]. rewrite Rdivc_ok by exact N1. cbn [bind].
  eexists. split; [reflexivity|]. unfold close4. repeat (apply Forall2_cons || apply Forall2_nil).
  - eapply side; [ent2 E31 E13|exact R2|lra|]. replace (4 * (s * c) * (s * a)) with (s * s * (4 * a * c)) by ring. rewrite Ss. ring.
  - eapply side; [ent2 E12 E21|exact R2|lra|]. replace (4 * (s * c) * (s * b)) with (s * s * (4 * b * c)) by ring. rewrite Ss. ring.
  - eapply main_c; [exact R1|exact R2|lra].
  - eapply side; [ent2 E23 E32|exact R2|lra|]. replace (4 * (s * c) * (s * d)) with (s * s * (4 * c * d)) by ring. rewrite Ss. ring.
Qed.
Lemma quat_float3 : largest d [a; b; c] -> exists s, (s = 1 \/ s = -1) /\ 0 <= s * d /\ exists q, quat_of_dcm_f F pow2 A = Ret q /\ close4 q [s * a; s * b; s * c; s * d].
Proof.
  intros L. pose proof (biggest _ _ _ _ L ltac:(unfold n2 in U1; lra)) as Q. inversion L as [|? ? L1 H1]; subst. inversion H1 as [|? ? L2 H2]; subst. inversion H2 as [|? ? L3 _]; subst.
  destruct squares as (S0 & S1 & S2 & S3). destruct (pick _ _ _ _ S3 S0 (margin _ _ L1)) as (B1 & B1'). destruct (pick _ _ _ _ S3 S1 (margin _ _ L2)) as (B2 & B2'). destruct (pick _ _ _ _ S3 S2 (margin _ _ L3)) as (B3 & B3').
  destruct (sign_of d) as (s & Hs & P & Sq & Ss). exists s. split; [exact Hs|]. split; [exact P|].
  assert (X := half_le (s * d) P ltac:(lra)). rewrite <- Sq in S3. destruct (root s3 (s * d) S3 X) as (N0 & N1 & R1 & R2).
  destruct ent as (E11 & E12 & E13 & E21 & E22 & E23 & E31 & E32 & E33).
  unfold quat_of_dcm_f. cbv beta zeta. change (frnd F) with r. fs. rewrite B1', B2', B3', !andb_false_r. cbn [andb]. unfold sqrtc. destruct (Rlt_dec s3 0); [lra|]. cbn [bind]. rewrite Rdivc_ok by exact N1. cbn [bind].
  eexists. split; [reflexivity|]. unfold close4. repeat (apply Forall2_cons || apply Forall2_nil).
  - eapply side; [ent2 E12 E21|exact R2|lra|]. replace (4 * (s * d) * (s * a)) with (s * s * (4 * a * d)) by ring. rewrite Ss. ring.
  - eapply side; [ent2 E31 E13|exact R2|lra|]. replace (4 * (s * d) * (s * b)) with (s * s * (4 * b * d)) by ring. rewrite Ss. ring.
  - eapply side; [ent2 E23 E32|exact R2|lra|]. replace (4 * (s * d) * (s * c)) with (s * s * (4 * c * d)) by ring. rewrite Ss. ring.
  - eapply main_c; [exact R1|exact R2|lra].
Qed.
End Quat.
