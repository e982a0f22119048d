(** Error analysis of the error dynamics. *)
From Coq Require Import Reals ZArith List Lra Lia Psatz.
From Flocq Require Import Core.
From Verif Require Import Base BaseVec SpecRot SpecEarth ModelGravity ModelNavUtils ModelDate ModelPva ModelStrapdownFloat ModelFramesFloat
  ModelGravityFloat ModelCoarseFloat ModelPvaFloat SpecFloatOps ProofVec ProofNavUtils ProofPi ProofFrames ProofStrapdownFloat ProofStrapdownFloat2 ProofFramesFloat ProofGravityFloat ProofNavFloat ProofCoarseFloat.
Import ListNotations.
Open Scope R_scope.

(** ** The inverse of the diagonal matrix D *)
Section Inv.
Variable F : FloatOps. Hypothesis HF : float_ok F.
Local Notation r := (frnd F).
Variables p q : R. Hypothesis Hp : 1000 <= p <= 100000000. Hypothesis Hq : 1000 <= q <= 100000000.
Local Notation ab := (ab u64).
Local Lemma HU : u64 <= u64 <= 1 / 1000000000000. Proof. pose proof u64_bounds. lra. Qed.
Local Lemma zero_mul x m : small_scale <= m -> ab (r (0 * x)) 0 (/ 1000000) m.
Proof. intros H. rewrite Rmult_0_l. exact (ab_zero u64 HU F HF m H). Qed.
Local Lemma mul_zero x m : small_scale <= m -> ab (r (x * 0)) 0 (/ 1000000) m.
Proof. intros H. rewrite Rmult_0_r. exact (ab_zero u64 HU F HF m H). Qed.
Local Lemma sc m : 1 / 1000000000000000000000000000000 <= m -> small_scale <= m.
Proof. unfold small_scale. lra. Qed.
(** A cofactor that is not zero. *)
Local Lemma cof_big a b c d : c * d = 0 -> 1 <= Rabs (a * b) -> ab (r (r (a * b) - r (c * d))) (a * b) (21 / 10) (Rabs (a * b)).
Proof.
  intros Z L. rewrite Z. assert (S : small_scale <= Rabs (a * b)) by (apply sc; lra).
  assert (A : ab (r (a * b)) (a * b) (1 + / 1000000) (Rabs (a * b))).
  { eapply ab_le; [exact HU|apply (ab_rnd u64 HU F HF); [apply ab_exact; apply Rle_refl|lra|exact S]|lra]. }
  pose proof (ab_sub u64 _ _ _ _ _ _ A (ab_zero u64 HU F HF _ S)) as B.
  eapply ab_le; [exact HU|apply (ab_rnd u64 HU F HF); [exact B|lra|exact S]|lra].
Qed.
(** A cofactor that is zero. *)
Local Lemma cof_nil a b c d : a * b = 0 -> c * d = 0 -> ab (r (r (a * b) - r (c * d))) 0 (11 / 10) (1 / 1000000000000000000000000000000).
Proof.
  intros Z1 Z2. rewrite Z1, Z2. assert (S : small_scale <= 1 / 1000000000000000000000000000000) by (apply sc; lra).
  pose proof (ab_sub u64 _ _ _ _ _ _ (ab_zero u64 HU F HF _ S) (ab_zero u64 HU F HF _ S)) as B.
  eapply ab_le; [exact HU|apply (ab_rnd u64 HU F HF); [exact B|lra|exact S]|lra].
Qed.
Let D := M3 p 0 0 0 q 0 0 0 (-1).
Definition near_diag (E : mat3) : Prop :=
  Rabs (m11 E - 1 / p) <= 20 * u64 * (1 / p) /\ Rabs (m22 E - 1 / q) <= 20 * u64 * (1 / q) /\ Rabs (m33 E - -1) <= 20 * u64 /\
  (let o x := Rabs x <= u64 / 1000000000000000000000000 in o (m12 E) /\ o (m13 E) /\ o (m21 E) /\ o (m23 E) /\ o (m31 E) /\ o (m32 E)).
Lemma diag_inverse : exists E, minvc_f F D = Ret E /\ near_diag E.
Proof.
  pose proof u64_bounds as U. assert (PQ : 1000000 <= p * q) by nra. assert (PQ2 : p * q <= 10000000000000000) by nra.
  unfold minvc_f, D; cbn [m11 m12 m13 m21 m22 m23 m31 m32 m33].
  pose proof (cof_big q (-1) 0 0 ltac:(ring) ltac:(rewrite Rabs_left; lra)) as C00. set (c00 := r (r (q * -1) - r (0 * 0))) in *.
  pose proof (cof_big (-1) p 0 0 ltac:(ring) ltac:(rewrite Rabs_left; lra)) as C11. set (c11 := r (r (-1 * p) - r (0 * 0))) in *.
  pose proof (cof_big p q 0 0 ltac:(ring) ltac:(rewrite Rabs_right; lra)) as C22. set (c22 := r (r (p * q) - r (0 * 0))) in *.
  pose proof (cof_nil 0 0 (-1) 0 ltac:(ring) ltac:(ring)) as C10. set (c10 := r (r (0 * 0) - r (-1 * 0))) in *.
  pose proof (cof_nil 0 0 0 q ltac:(ring) ltac:(ring)) as C20. set (c20 := r (r (0 * 0) - r (0 * q))) in *.
  pose proof (cof_nil 0 0 0 (-1) ltac:(ring) ltac:(ring)) as C01. set (c01 := r (r (0 * 0) - r (0 * -1))) in *.
  pose proof (cof_nil 0 0 p 0 ltac:(ring) ltac:(ring)) as C21. set (c21 := r (r (0 * 0) - r (p * 0))) in *.
  pose proof (cof_nil 0 0 q 0 ltac:(ring) ltac:(ring)) as C02. set (c02 := r (r (0 * 0) - r (q * 0))) in *.
  pose proof (cof_nil 0 0 0 p ltac:(ring) ltac:(ring)) as C12. set (c12 := r (r (0 * 0) - r (0 * p))) in *.
  clearbody c00 c11 c22 c10 c20 c01 c21 c02 c12.
  set (d := fdot F _ _).
  assert (DD : ab d (- (p * q)) (66 / 10) (Rabs (- (p * q)))).
  { split; [|apply Rle_refl]. rewrite Rabs_Ropp, (Rabs_right (p * q)) by lra.
    pose proof (proj1 (proj2 HF) (V3 c00 c10 c20) (col1 (M3 p 0 0 0 q 0 0 0 (-1)))) as E. fold d in E. unfold dot, col1 in E. cbn [vx vy vz m11 m21 m31] in E. rewrite !Rmult_0_r, !Rplus_0_r, Rabs_R0, !Rplus_0_r in E.
    destruct C00 as [C _]. replace (q * -1) with (- q) in C by ring. rewrite Rabs_Ropp, (Rabs_right q) in C by lra.
    assert (CP : Rabs (c00 * p - - (p * q)) <= 21 / 10 * u64 * (p * q)).
    { replace (c00 * p - - (p * q)) with ((c00 - - q) * p) by ring. rewrite Rabs_mult, (Rabs_right p) by lra. replace (21 / 10 * u64 * (p * q)) with (21 / 10 * u64 * q * p) by ring. apply Rmult_le_compat_r; lra. }
    assert (CA : Rabs (c00 * p) <= 11 / 10 * (p * q)).
    { apply Rabs_le_inv in CP. apply Rabs_le. assert (21 / 10 * u64 * (p * q) <= 1 / 10 * (p * q)) by (apply Rmult_le_compat_r; lra). lra. }
    assert (E8 : 8 * eta64 <= 1 / 100000 * (u64 * (p * q))).
    { pose proof eta_e20 as Q. unfold e20 in Q. assert (u64 * 1000000 <= u64 * (p * q)) by (apply Rmult_le_compat_l; lra). lra. }
    pose proof (Rabs_triang (d - c00 * p) (c00 * p - - (p * q))) as T. replace (d - c00 * p + (c00 * p - - (p * q))) with (d - - (p * q)) in T by ring.
    assert (4 * u64 * Rabs (c00 * p) <= 4 * u64 * (11 / 10 * (p * q))) by (apply Rmult_le_compat_l; lra). assert (0 <= u64 * (p * q)) by (apply Rmult_le_pos; lra). lra. }
  clearbody d. destruct (ab_inv u64 HU _ _ _ DD) as (D0 & DI); [lra|lra|]. unfold Rdivc. destruct (Req_EM_T d 0) as [Z|_]; [contradiction|]. cbn [bind].
  assert (IA : Rabs (1 / - (p * q)) = 1 / (p * q)).
  { replace (1 / - (p * q)) with (- (1 / (p * q))) by (field; lra). rewrite Rabs_Ropp, Rabs_right; [reflexivity|]. apply Rle_ge, Rlt_le, Rdiv_lt_0_compat; lra. }
  assert (IB : 1 / 10000000000000000 <= 1 / (p * q) <= 1 / 1000000).
  { split; unfold Rdiv; rewrite !Rmult_1_l; apply Rinv_le_contravar; lra. }
  assert (II : ab (r (1 / d)) (1 / - (p * q)) (77 / 10) (1 / (p * q))).
  { rewrite <- IA. eapply ab_le; [exact HU|apply (ab_rnd u64 HU F HF); [exact DI|lra|rewrite IA; apply sc; lra]|lra]. }
  set (i := r (1 / d)) in *. clearbody i.
  eexists. split; [reflexivity|]. unfold near_diag. cbn [m11 m12 m13 m21 m22 m23 m31 m32 m33].
  assert (BIG : forall c y, ab c y (21 / 10) (Rabs y) -> 1 <= Rabs y <= 100000000000000000 -> Rabs (r (c * i) - y * (1 / - (p * q))) <= 20 * u64 * Rabs (y * (1 / - (p * q)))).
  { intros c y A B. pose proof (ab_mul u64 HU _ _ _ _ _ _ _ _ A II ltac:(lra) ltac:(lra)) as M. rewrite (Rabs_mult y), IA.
    assert (S : small_scale <= Rabs y * (1 / (p * q))) by (apply sc; apply Rle_trans with (1 * (1 / 10000000000000000)); [lra|apply Rmult_le_compat; lra]).
    apply (ab_le u64 HU) with (k' := 20) in M; [|lra]. 
    pose proof (ab_mul u64 HU _ _ _ _ _ _ _ _ A II ltac:(lra) ltac:(lra)) as M1.
    pose proof (ab_rnd u64 HU F HF _ _ _ _ M1 ltac:(lra) S) as [M2 _]. eapply Rle_trans; [exact M2|]. apply Rmult_le_compat_r; [unfold small_scale in S; lra|]. apply Rmult_le_compat_r; lra. }
  assert (NIL : forall c, ab c 0 (11 / 10) (1 / 1000000000000000000000000000000) -> Rabs (r (c * i)) <= u64 / 1000000000000000000000000).
  { intros c A. pose proof (ab_mul u64 HU _ _ _ _ _ _ _ _ A II ltac:(lra) ltac:(lra)) as [M1 _]. rewrite Rmult_0_l, Rminus_0_r in M1.
    pose proof (proj1 HF (c * i)) as E. pose proof eta80 as E8.
    set (m := 1 / 1000000000000000000000000000000 * (1 / (p * q))) in *. assert (m <= 1 / 1000000000000000000000000000000000000) by (unfold m; lra). assert (0 <= m) by (unfold m; lra).
    assert (X : Rabs (c * i) <= 10 * u64 * (1 / 1000000000000000000000000000000000000)).
    { eapply Rle_trans; [exact M1|]. apply Rmult_le_compat; [|lra| |lra]; [|apply Rmult_le_compat_r; lra]. apply Rmult_le_pos; lra. }
    pose proof (Rabs_triang (r (c * i) - c * i) (c * i)) as T. replace (r (c * i) - c * i + c * i) with (r (c * i)) in T by ring.
    pose proof (Rabs_pos (c * i)). assert (u64 * Rabs (c * i) <= 1 * Rabs (c * i)) by (apply Rmult_le_compat_r; lra). pose proof u64_val. lra. }
  repeat split; try (apply NIL; assumption).
  - assert (E : q * -1 * (1 / - (p * q)) = 1 / p) by (field; lra). pose proof (BIG _ _ C00 ltac:(rewrite Rabs_left; lra)) as B. rewrite E in B. rewrite (Rabs_right (1 / p)) in B; [exact B|]. apply Rle_ge, Rlt_le, Rdiv_lt_0_compat; lra.
  - assert (E : -1 * p * (1 / - (p * q)) = 1 / q) by (field; lra). pose proof (BIG _ _ C11 ltac:(rewrite Rabs_left; lra)) as B. rewrite E in B. rewrite (Rabs_right (1 / q)) in B; [exact B|]. apply Rle_ge, Rlt_le, Rdiv_lt_0_compat; lra.
  - assert (E : p * q * (1 / - (p * q)) = -1) by (field; lra). pose proof (BIG _ _ C22 ltac:(rewrite Rabs_right; lra)) as B. rewrite E in B. rewrite (Rabs_left (-1)) in B by lra. lra.
Qed.
End Inv.
