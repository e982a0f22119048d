(** Error analysis of the navigation equations and of one Runge-Kutta step. *)
From Coq Require Import Reals ZArith List Lra Lia Psatz.
From Flocq Require Import Core.
From Verif Require Import Base BaseVec SpecRot SpecEarth ModelGravity ModelNavUtils ModelDate ModelStrapdownFloat ModelFramesFloat
  ModelGravityFloat ModelNavFloat SpecFloatOps ProofVec ProofNavUtils ProofPi ProofFrames ProofStrapdownFloat ProofStrapdownFloat2 ProofFramesFloat ProofGravityFloat.
Import ListNotations.
Open Scope R_scope.

Section Dyn.
Variable F : FloatOps.
Hypothesis HF : float_ok F.
Variable pow2 : R -> R.
Hypothesis HP : pow2_ok pow2.
Variable pow15 : R -> R.
Hypothesis H15 : forall x, 1 / 2 <= x <= 2 -> Rabs (pow15 x - Rpower x (3 / 2)) <= 4 * u64.
Let r := frnd F.

Ltac bnd := lazymatch goal with
  | H : ap ?x ?y _ _ |- ap ?x ?y _ _ => exact H
  | |- ap (frnd _ _) _ _ _ => eapply (ap_rnd F HF); bnd
  | |- ap (r _) _ _ _ => eapply (ap_rnd F HF); bnd
  | |- ap (pow2 _) (_ * _) _ _ => eapply (ap_pow2 pow2 HP); [bnd|num]
  | |- ap (_ * _) (_ * _) _ _ => eapply ap_mul; [bnd|bnd]
  | |- ap (_ + _) (_ + _) _ _ => eapply ap_add; [bnd|bnd]
  | |- ap (_ - _) (_ - _) _ _ => eapply ap_sub; [bnd|bnd]
  | |- ap (- _) (- _) _ _ => eapply ap_opp; bnd
  | |- ap ?x ?x _ _ => apply ap_const; lra end.
Ltac au := eapply ap_le; [bnd| |]; num.

(** One evaluation of the rates, from perturbed values.  [kA] bounds the error of
    the acceleration. *)
Variable kA : R.
Hypothesis HA : 0 <= kA <= 250000.
Variables lat h vN vE vD lat' h' vN' vE' vD' : R.
Hypothesis Alat : ap lat' lat 10 (3 / 2).
Hypothesis Ah : ap h' h 400000 110000.
Hypothesis AvN : ap vN' vN (kA + 30000) 1200.
Hypothesis AvE : ap vE' vE (kA + 30000) 1200.
Hypothesis AvD : ap vD' vD (kA + 30000) 1200.

Lemma As : ap (fsin F lat') (sin lat) 12 1.
Proof.
  split; [|apply Rabs_le, SIN_bound]. destruct Alat as (A & _).
  pose proof (abs_tri _ _ _ _ _ (proj1 (proj2 (proj2 HF)) lat') (Rle_trans _ _ _ (sin_lip _ _) A)). lra.
Qed.
Lemma Ac : ap (fcos F lat') (cos lat) 12 1.
Proof.
  split; [|apply Rabs_le, COS_bound]. destruct Alat as (A & _).
  pose proof (abs_tri _ _ _ _ _ (proj2 (proj2 (proj2 HF)) lat') (Rle_trans _ _ _ (cos_lip _ _) A)). lra.
Qed.
Lemma c_low : 7 / 100 <= cos lat.
Proof.
  destruct Alat as (_ & A). apply Rabs_le_inv in A. pose proof PI_bounds as P.
  apply Rle_trans with (cos (3 / 2)).
  - replace (3 / 2) with (PI / 2 - (PI / 2 - 3 / 2)) by ring. rewrite cos_shift. pose proof (sin_bound (PI / 2 - 3 / 2) 0 ltac:(lra) ltac:(lra)) as (B & _).
    unfold sin_approx, sum_f_R0, sin_term in B. cbn in B. set (y := PI / 2 - 3 / 2) in *. assert (707 / 10000 <= y <= 708 / 10000) by (unfold y; lra). nra.
  - destruct (Rle_dec 0 lat) as [L|L].
    + apply cos_decr_1; lra.
    + rewrite <- (cos_neg lat). apply cos_decr_1; lra.
Qed.
Let eSq := 2 * gp_f - gp_f * gp_f.
Let eSq' := r (r (2 * gp_f_f F) - pow2 (gp_f_f F)).
Let w := 1 - eSq * (sin lat * sin lat).
Let w' := r (1 - r (eSq' * pow2 (fsin F lat'))).
Lemma Ae : ap eSq' eSq (21 / 10) (7 / 1000).
Proof. pose proof (ap_f F HF) as A. unfold eSq', eSq. eapply apM; [eapply ap_le; [bnd| |]; [num|apply Rle_refl]|]. unfold gp_f. rewrite Rabs_right; lra. Qed.
Lemma w_range : 99 / 100 <= w <= 1.
Proof.
  unfold w, eSq, gp_f. pose proof (Rle_0_sqr (sin lat)) as S. unfold Rsqr in S. pose proof (sin2_cos2 lat) as T. unfold Rsqr in T. pose proof (Rle_0_sqr (cos lat)) as C. unfold Rsqr in C.
  set (t := sin lat * sin lat) in *. split; nra.
Qed.
Lemma Aw : ap w' w (36 / 10) 1.
Proof.
  pose proof Ae as A. pose proof As as B. pose proof w_range as W.
  assert (Q : ap (r (eSq' * pow2 (fsin F lat'))) (eSq * (sin lat * sin lat)) (25 / 10) (7 / 1000)) by (clearbody eSq eSq'; au).
  unfold w', w. eapply apM; [eapply ap_le; [bnd| |]; [num|apply Rle_refl]|]. fold w. rewrite Rabs_right; lra.
Qed.
Let sq := sqrt w.
Let sq' := r (sqrt w').
Lemma sq_range : 99 / 100 <= sq <= 1.
Proof.
  pose proof w_range as W. unfold sq. split.
  - rewrite <- (sqrt_square (99 / 100)) by lra. apply sqrt_le_1_alt. lra.
  - rewrite <- sqrt_1. apply sqrt_le_1_alt. lra.
Qed.
Lemma Asq : 0 <= w' /\ ap (sqrt w') sq (37 / 10) 1 /\ ap sq' sq (48 / 10) 1.
Proof.
  pose proof w_range as W. pose proof sq_range as S. destruct (ap_sqrt _ _ _ _ (99 / 100) Aw) as (P & Q); [lra|lra|lra|num|].
  split; [exact P|]. assert (B : ap (sqrt w') sq (37 / 10) 1).
  { eapply apM; [eapply ap_le; [exact Q| |apply Rle_refl]|rewrite Rabs_right; lra]. lra. }
  split; [exact B|]. unfold sq'. au.
Qed.
Lemma A15 : ap (pow15 w') (Rpower w (3 / 2)) (119 / 10) 1 /\ 98 / 100 <= Rpower w (3 / 2).
Proof.
  pose proof w_range as W. pose proof sq_range as S. destruct Asq as (_ & B & _). pose proof Aw as (A1 & A2). pose proof u64_bounds as U. assert (X := Rabs_le_inv _ _ A1).
  rewrite Rpower_3_2 by lra. fold sq. split.
  - pose proof (H15 w' ltac:(lra)) as C. rewrite Rpower_3_2 in C by lra.
    destruct (ap_mul _ _ _ _ _ _ _ _ Aw B) as (D & _). split.
    + pose proof (Rabs_triang (pow15 w' - w' * sqrt w') (w' * sqrt w' - w * sq)) as T. replace (pow15 w' - w' * sqrt w' + (w' * sqrt w' - w * sq)) with (pow15 w' - w * sq) in T by ring.
      assert ((36 / 10 * (1 + 37 / 10 * e15) + 1 * (37 / 10)) * u64 <= 79 / 10 * u64) by (apply Rmult_le_compat_r; [lra|num]). lra.
    + rewrite Rabs_right by nra. nra.
  - nra.
Qed.
Let N := gp_a / sq.
Let N' := r (gp_a_f / sq').
Lemma AN : sq' <> 0 /\ ap N' N 45000000 6450000 /\ 6370000 <= N.
Proof.
  pose proof sq_range as S. destruct Asq as (_ & _ & A).
  destruct (ap_div _ _ _ _ _ _ _ _ (99 / 100) ap_a A) as (P & Q); [lra|rewrite Rabs_right; lra|num|].
  split; [exact P|]. split; [unfold N', N; au|]. unfold N, gp_a. apply Rmult_le_reg_r with sq; [lra|]. unfold Rdiv. rewrite Rmult_assoc, Rinv_l by lra. lra.
Qed.
Let M := gp_a * (1 - eSq) / Rpower w (3 / 2).
Let M' := r (r (gp_a_f * r (1 - eSq')) / pow15 w').
Lemma AM : pow15 w' <> 0 /\ ap M' M 150000000 6480000 /\ 6330000 <= M.
Proof.
  destruct A15 as (A & L). pose proof Ae as B. pose proof ap_a as C.
  assert (E1 : 993 / 1000 <= 1 - eSq <= 994 / 1000) by (unfold eSq, gp_f; lra).
  assert (D : ap (1 - eSq') (1 - eSq) (21 / 10) 1).
  { eapply apM; [eapply ap_le; [bnd| |apply Rle_refl]; num|rewrite Rabs_right; lra]. }
  assert (G : ap (r (gp_a_f * r (1 - eSq'))) (gp_a * (1 - eSq)) 40000000 6340000).
  { eapply apM; [eapply ap_le; [bnd| |apply Rle_refl]; num|]. unfold gp_a. rewrite Rabs_right; lra. }
  destruct (ap_div _ _ _ _ _ _ _ _ (98 / 100) G A) as (P & Q); [lra|rewrite Rabs_right; lra|num|].
  split; [exact P|]. split; [unfold M', M; au|]. unfold M. assert (U1 : Rpower w (3 / 2) <= 1).
  { destruct A as (_ & A). apply Rabs_le_inv in A. lra. }
  unfold gp_a in *. apply Rmult_le_reg_r with (Rpower w (3 / 2)); [lra|]. unfold Rdiv. rewrite Rmult_assoc, Rinv_l by lra. nra.
Qed.
Let ld := vN / (M + h).
Let ld' := r (vN' / r (M' + h')).
Lemma Ald : r (M' + h') <> 0 /\ M + h <> 0 /\ ap ld' ld (6 / 100) (2 / 10000).
Proof.
  destruct AM as (_ & A & L). pose proof Ah as B. pose proof AvN as C. destruct Ah as (_ & H0). apply Rabs_le_inv in H0.
  assert (D : ap (r (M' + h')) (M + h) 200000000 6600000) by (clearbody M M'; au).
  destruct (ap_div _ _ _ _ _ _ _ _ 6200000 C D) as (P & Q); [lra|rewrite Rabs_right; lra|num|].
  split; [exact P|]. split; [lra|]. unfold ld', ld. au.
Qed.
Let od := vE / ((N + h) * cos lat).
Let od' := r (vE' / r (r (N' + h') * fcos F lat')).
Lemma Aod : r (r (N' + h') * fcos F lat') <> 0 /\ (N + h) * cos lat <> 0 /\ ap od' od (18 / 10) (28 / 10000).
Proof.
  destruct AN as (_ & A & L). pose proof Ah as B. pose proof AvE as C. destruct Ah as (_ & H0). apply Rabs_le_inv in H0. pose proof Ac as K. pose proof c_low as CL.
  assert (D : ap (r (r (N' + h') * fcos F lat')) ((N + h) * cos lat) 160000000 6600000) by (clearbody N N'; au).
  assert (E : 434000 <= (N + h) * cos lat) by (apply Rle_trans with (6200000 * (7 / 100)); [lra|apply Rmult_le_compat; lra]).
  destruct (ap_div _ _ _ _ _ _ _ _ 434000 C D) as (P & Q); [lra|rewrite Rabs_right; lra|num|].
  split; [exact P|]. split; [lra|]. unfold od', od. au.
Qed.
Variables dVN gN dVN' gN' : vec3.
Variables dt dt' : R.
Hypothesis D0 : dt <> 0.
Hypothesis D0' : dt' <> 0.
Hypothesis Aa : ap (r (vx dVN' / dt')) (vx dVN / dt) kA 100 /\ ap (r (vy dVN' / dt')) (vy dVN / dt) kA 100 /\ ap (r (vz dVN' / dt')) (vz dVN / dt) kA 100.
Hypothesis Ag : ap (vx gN') (vx gN) 3000 11 /\ ap (vy gN') (vy gN) 3000 11 /\ ap (vz gN') (vz gN) 3000 11.
Variables lon lon' : R.
Lemma dyn_ap : exists f f', strapdownDynamics (V3 lat lon h, V3 vN vE vD) dVN gN dt = Ret f /\
  strapdownDynamics_f F pow2 pow15 (V3 lat' lon' h', V3 vN' vE' vD') dVN' gN' dt' = Ret f' /\
  ap (vx (fst f')) (vx (fst f)) 1 (2 / 10000) /\ ap (vy (fst f')) (vy (fst f)) 2 (28 / 10000) /\ ap (vz (fst f')) (vz (fst f)) (kA + 30000) 1200 /\
  ap (vx (snd f')) (vx (snd f)) (kA + 10000) 115 /\ ap (vy (snd f')) (vy (snd f)) (kA + 10000) 120 /\ ap (vz (snd f')) (vz (snd f)) (kA + 10000) 115.
Proof.
  unfold strapdownDynamics, strapdownDynamics_f. cbv zeta. cbn [fst snd vx vy vz]. change (frnd F) with r.
  rewrite !(Rdivc_ok _ dt) by assumption. rewrite !(Rdivc_ok _ dt') by assumption. cbn [bind].
  change (r (r (2 * gp_f_f F) - pow2 (gp_f_f F))) with eSq'. change (2 * gp_f - gp_f * gp_f) with eSq.
  change (1 - eSq * (sin lat * sin lat)) with w. change (r (1 - r (eSq' * pow2 (fsin F lat')))) with w'.
  pose proof w_range as W. pose proof sq_range as S. destruct Asq as (W0 & _ & _). unfold sqrtc. destruct (Rlt_dec w 0) as [B|_]; [lra|]. destruct (Rlt_dec w' 0) as [B|_]; [lra|]. cbn [bind].
  change (sqrt w) with sq. change (r (sqrt w')) with sq'. rewrite (Rdivc_ok gp_a sq) by lra. rewrite (Rdivc_ok gp_a_f sq') by apply AN. cbn [bind].
  rewrite (Rdivc_ok _ (Rpower w (3 / 2))) by (pose proof (proj2 A15); lra). rewrite (Rdivc_ok _ (pow15 w')) by apply AM. cbn [bind].
  change (gp_a / sq) with N. change (r (gp_a_f / sq')) with N'. change (gp_a * (1 - eSq) / Rpower w (3 / 2)) with M. change (r (r (gp_a_f * r (1 - eSq')) / pow15 w')) with M'.
  rewrite (Rdivc_ok vN) by apply Ald. rewrite (Rdivc_ok vN') by apply Ald. cbn [bind]. rewrite (Rdivc_ok vE) by apply Aod. rewrite (Rdivc_ok vE') by apply Aod. cbn [bind].
  change (vN / (M + h)) with ld. change (r (vN' / r (M' + h'))) with ld'. change (vE / ((N + h) * cos lat)) with od. change (r (vE' / r (r (N' + h') * fcos F lat'))) with od'.
  do 2 eexists. split; [reflexivity|]. split; [reflexivity|]. cbn [fst snd vx vy vz].
  destruct Ald as (_ & _ & A1). destruct Aod as (_ & _ & A2). pose proof As as A3. pose proof Ac as A4. destruct Aa as (A5 & A6 & A7). destruct Ag as (A8 & A9 & A10). pose proof (ap_wE F HF) as A11.
  clearbody ld ld' od od'.
  split; [eapply ap_le; [exact A1|lra|lra]|]. split; [eapply ap_le; [exact A2|lra|lra]|]. split; [apply ap_opp; exact AvD|]. split; [au|]. split; au.
Qed.
End Dyn.

(** The six rates, approximated. *)
Definition rates_ap (kA : R) (f' f : vec3 * vec3) : Prop :=
  ap (vx (fst f')) (vx (fst f)) 1 (2 / 10000) /\ ap (vy (fst f')) (vy (fst f)) 2 (28 / 10000) /\ ap (vz (fst f')) (vz (fst f)) (kA + 30000) 1200 /\
  ap (vx (snd f')) (vx (snd f)) (kA + 10000) 115 /\ ap (vy (snd f')) (vy (snd f)) (kA + 10000) 120 /\ ap (vz (snd f')) (vz (snd f)) (kA + 10000) 115.
(** The six state components, approximated. *)
Definition state_ap (kA : R) (y' y : vec3 * vec3) : Prop :=
  ap (vx (fst y')) (vx (fst y)) 10 (3 / 2) /\ ap (vz (fst y')) (vz (fst y)) 400000 110000 /\
  ap (vx (snd y')) (vx (snd y)) (kA + 30000) 1200 /\ ap (vy (snd y')) (vy (snd y)) (kA + 30000) 1200 /\ ap (vz (snd y')) (vz (snd y)) (kA + 30000) 1200.

Lemma add_vxf F a b : vx (fst (s6add_f F a b)) = frnd F (vx (fst a) + vx (fst b)). Proof. reflexivity. Qed.
Lemma scale_vxf F k a : vx (fst (s6scale_f F k a)) = frnd F (k * vx (fst a)). Proof. reflexivity. Qed.
Lemma eadd_vxf a b : vx (fst (s6add a b)) = vx (fst a) + vx (fst b). Proof. reflexivity. Qed.
Lemma escale_vxf k a : vx (fst (s6scale k a)) = k * vx (fst a). Proof. reflexivity. Qed.
Lemma add_vyf F a b : vy (fst (s6add_f F a b)) = frnd F (vy (fst a) + vy (fst b)). Proof. reflexivity. Qed.
Lemma scale_vyf F k a : vy (fst (s6scale_f F k a)) = frnd F (k * vy (fst a)). Proof. reflexivity. Qed.
Lemma eadd_vyf a b : vy (fst (s6add a b)) = vy (fst a) + vy (fst b). Proof. reflexivity. Qed.
Lemma escale_vyf k a : vy (fst (s6scale k a)) = k * vy (fst a). Proof. reflexivity. Qed.
Lemma add_vzf F a b : vz (fst (s6add_f F a b)) = frnd F (vz (fst a) + vz (fst b)). Proof. reflexivity. Qed.
Lemma scale_vzf F k a : vz (fst (s6scale_f F k a)) = frnd F (k * vz (fst a)). Proof. reflexivity. Qed.
Lemma eadd_vzf a b : vz (fst (s6add a b)) = vz (fst a) + vz (fst b). Proof. reflexivity. Qed.
Lemma escale_vzf k a : vz (fst (s6scale k a)) = k * vz (fst a). Proof. reflexivity. Qed.
Lemma add_vxs F a b : vx (snd (s6add_f F a b)) = frnd F (vx (snd a) + vx (snd b)). Proof. reflexivity. Qed.
Lemma scale_vxs F k a : vx (snd (s6scale_f F k a)) = frnd F (k * vx (snd a)). Proof. reflexivity. Qed.
Lemma eadd_vxs a b : vx (snd (s6add a b)) = vx (snd a) + vx (snd b). Proof. reflexivity. Qed.
Lemma escale_vxs k a : vx (snd (s6scale k a)) = k * vx (snd a). Proof. reflexivity. Qed.
Lemma add_vys F a b : vy (snd (s6add_f F a b)) = frnd F (vy (snd a) + vy (snd b)). Proof. reflexivity. Qed.
Lemma scale_vys F k a : vy (snd (s6scale_f F k a)) = frnd F (k * vy (snd a)). Proof. reflexivity. Qed.
Lemma eadd_vys a b : vy (snd (s6add a b)) = vy (snd a) + vy (snd b). Proof. reflexivity. Qed.
Lemma escale_vys k a : vy (snd (s6scale k a)) = k * vy (snd a). Proof. reflexivity. Qed.
Lemma add_vzs F a b : vz (snd (s6add_f F a b)) = frnd F (vz (snd a) + vz (snd b)). Proof. reflexivity. Qed.
Lemma scale_vzs F k a : vz (snd (s6scale_f F k a)) = frnd F (k * vz (snd a)). Proof. reflexivity. Qed.
Lemma eadd_vzs a b : vz (snd (s6add a b)) = vz (snd a) + vz (snd b). Proof. reflexivity. Qed.
Lemma escale_vzs k a : vz (snd (s6scale k a)) = k * vz (snd a). Proof. reflexivity. Qed.
Ltac comps := rewrite ?add_vxf, ?scale_vxf, ?eadd_vxf, ?escale_vxf, ?add_vyf, ?scale_vyf, ?eadd_vyf, ?escale_vyf, ?add_vzf, ?scale_vzf, ?eadd_vzf, ?escale_vzf, ?add_vxs, ?scale_vxs, ?eadd_vxs, ?escale_vxs, ?add_vys, ?scale_vys, ?eadd_vys, ?escale_vys, ?add_vzs, ?scale_vzs, ?eadd_vzs, ?escale_vzs.
Section Step.
Variable F : FloatOps.
Hypothesis HF : float_ok F.
Variable pow2 : R -> R.
Hypothesis HP : pow2_ok pow2.
Variable pow15 : R -> R.
Hypothesis H15 : forall x, 1 / 2 <= x <= 2 -> Rabs (pow15 x - Rpower x (3 / 2)) <= 4 * u64.
Let r := frnd F.
Ltac bnd := lazymatch goal with
  | H : ap ?x ?y _ _ |- ap ?x ?y _ _ => exact H
  | |- ap (frnd _ _) _ _ _ => eapply (ap_rnd F HF); bnd
  | |- ap (r _) _ _ _ => eapply (ap_rnd F HF); bnd
  | |- ap (_ * _) (_ * _) _ _ => eapply ap_mul; [bnd|bnd]
  | |- ap (_ + _) (_ + _) _ _ => eapply ap_add; [bnd|bnd]
  | |- ap (_ - _) (_ - _) _ _ => eapply ap_sub; [bnd|bnd]
  | |- ap (- _) (- _) _ _ => eapply ap_opp; bnd
  | |- ap ?x ?x _ _ => apply ap_const; lra end.
Ltac au := eapply ap_le; [bnd| |]; num.
Variable kA : R.
Hypothesis HA : 0 <= kA <= 250000.
Variables dVN gN dVN' gN' : vec3.
Variables dt dt' : R.
Hypothesis D0 : dt <> 0.
Hypothesis D0' : dt' <> 0.
Hypothesis Adt : ap dt' dt 3 1.
Hypothesis Aa : ap (r (vx dVN' / dt')) (vx dVN / dt) kA 100 /\ ap (r (vy dVN' / dt')) (vy dVN / dt) kA 100 /\ ap (r (vz dVN' / dt')) (vz dVN / dt) kA 100.
Hypothesis Ag : ap (vx gN') (vx gN) 3000 11 /\ ap (vy gN') (vy gN) 3000 11 /\ ap (vz gN') (vz gN) 3000 11.
Lemma dyn_state y y' : state_ap kA y' y -> exists f f', strapdownDynamics y dVN gN dt = Ret f /\ strapdownDynamics_f F pow2 pow15 y' dVN' gN' dt' = Ret f' /\ rates_ap kA f' f.
Proof.
  destruct y as [[a b c] [d e f]], y' as [[a' b' c'] [d' e' f']]. intros (A1 & A2 & A3 & A4 & A5). cbn [fst snd vx vy vz] in *.
  apply (dyn_ap F HF pow2 HP pow15 H15 kA HA); assumption.
Qed.
Variables lat lon h vN vE vD : R.
Hypothesis Hlat : Rabs lat <= 148 / 100.
Hypothesis Hlon : Rabs lon <= 7.
Hypothesis Hh : Rabs h <= 100000.
Hypothesis HvN : Rabs vN <= 1000.
Hypothesis HvE : Rabs vE <= 1000.
Hypothesis HvD : Rabs vD <= 1000.
Let y := (V3 lat lon h, V3 vN vE vD).
Lemma start_ap : state_ap kA y y.
Proof. unfold state_ap, y. cbn [fst snd vx vy vz]. repeat match goal with |- _ /\ _ => split end; (eapply ap_le; [apply ap_exact; eassumption|lra|lra]). Qed.
Ltac six := repeat match goal with |- ap _ _ _ _ /\ _ => split end.
Lemma half_stage f f' : rates_ap kA f' f -> state_ap kA (s6add_f F y (s6scale_f F (/ 2) (s6scale_f F dt' f'))) (s6add y (s6scale (/ 2) (s6scale dt f))).
Proof.
  intros (A1 & A2 & A3 & A4 & A5 & A6).
  pose proof (ap_exact _ _ Hlat) as B1. pose proof (ap_exact _ _ Hh) as B3. pose proof (ap_exact _ _ HvN) as B4. pose proof (ap_exact _ _ HvE) as B5. pose proof (ap_exact _ _ HvD) as B6.
  unfold state_ap. comps. unfold y. cbn [fst snd vx vy vz]. fold r. six; au.
Qed.
Lemma full_stage f f' : rates_ap kA f' f -> state_ap kA (s6add_f F y (s6scale_f F dt' f')) (s6add y (s6scale dt f)).
Proof.
  intros (A1 & A2 & A3 & A4 & A5 & A6).
  pose proof (ap_exact _ _ Hlat) as B1. pose proof (ap_exact _ _ Hh) as B3. pose proof (ap_exact _ _ HvN) as B4. pose proof (ap_exact _ _ HvE) as B5. pose proof (ap_exact _ _ HvD) as B6.
  unfold state_ap. comps. unfold y. cbn [fst snd vx vy vz]. fold r. six; au.
Qed.
Lemma Ac6 : ap (r (1 / 6)) (1 / 6) (1 / 6 + e15) (1 / 6). Proof. au. Qed.
Lemma Ac3 : ap (r (1 / 3)) (1 / 3) (1 / 3 + e15) (1 / 3). Proof. au. Qed.
(** The weighted sum of the four stages for one component. *)
Lemma comb x X a1 a1' a2 a2' a3 a3' a4 a4' k m : Rabs x <= X -> ap a1' a1 k m -> ap a2' a2 k m -> ap a3' a3 k m -> ap a4' a4 k m -> 0 <= X <= 1000000 -> k <= 1000000 -> m <= 10000 ->
  ap (r (r (r (r (x + r (r (1 / 6) * r (dt' * a1'))) + r (r (1 / 3) * r (dt' * a2'))) + r (r (1 / 3) * r (dt' * a3'))) + r (r (1 / 6) * r (dt' * a4'))))
     (x + 1 / 6 * (dt * a1) + 1 / 3 * (dt * a2) + 1 / 3 * (dt * a3) + 1 / 6 * (dt * a4)) (k + 9 * m + 4 * X + 1 / 1000) (X + m).
Proof.
  intros HX A1 A2 A3 A4 X0 K Mm. destruct (ap_pos _ _ _ _ A1) as (K0 & M0).
  assert (T : forall a a', ap a' a k m -> ap (r (dt' * a')) (dt * a) (k + 4 * m + 1 / 100000) m).
  { intros a a' A. eapply ap_le; [bnd| |]; unfold e15, e20; lra. }
  pose proof Ac6 as C6. pose proof Ac3 as C3.
  assert (T6 : forall a a', ap a' a k m -> ap (r (r (1 / 6) * r (dt' * a'))) (1 / 6 * (dt * a)) (1 / 6 * k + m + 1 / 20000) (m / 6)).
  { intros a a' A. pose proof (T _ _ A) as B. eapply ap_le; [bnd| |]; unfold e15, e20; lra. }
  assert (T3 : forall a a', ap a' a k m -> ap (r (r (1 / 3) * r (dt' * a'))) (1 / 3 * (dt * a)) (1 / 3 * k + 2 * m + 1 / 20000) (m / 3)).
  { intros a a' A. pose proof (T _ _ A) as B. eapply ap_le; [bnd| |]; unfold e15, e20; lra. }
  pose proof (T6 _ _ A1) as B1. pose proof (T3 _ _ A2) as B2. pose proof (T3 _ _ A3) as B3. pose proof (T6 _ _ A4) as B4. pose proof (ap_exact _ _ HX) as B0. clear T T6 T3 A1 A2 A3 A4 C6 C3.
  set (b1 := r (r (1 / 6) * r (dt' * a1'))) in *. set (b2 := r (r (1 / 3) * r (dt' * a2'))) in *. set (b3 := r (r (1 / 3) * r (dt' * a3'))) in *. set (b4 := r (r (1 / 6) * r (dt' * a4'))) in *.
  set (t1 := 1 / 6 * (dt * a1)) in *. set (t2 := 1 / 3 * (dt * a2)) in *. set (t3 := 1 / 3 * (dt * a3)) in *. set (t4 := 1 / 6 * (dt * a4)) in *. clearbody b1 b2 b3 b4 t1 t2 t3 t4.
  assert (S1 : ap (r (x + b1)) (x + t1) (1 / 6 * k + 7 / 6 * m + X + 1 / 10000) (X + m / 6)) by (eapply ap_le; [bnd| |]; unfold e15, e20; lra).
  assert (S2 : ap (r (r (x + b1) + b2)) (x + t1 + t2) (1 / 2 * k + 22 / 6 * m + 2 * X + 2 / 10000 + 1 / 100000) (X + m / 2)).
  { eapply ap_le; [eapply (ap_rnd F HF), ap_add; [exact S1|exact B2]| |]; unfold e15, e20; lra. }
  assert (S3 : ap (r (r (r (x + b1) + b2) + b3)) (x + t1 + t2 + t3) (5 / 6 * k + 65 / 10 * m + 3 * X + 4 / 10000) (X + 5 / 6 * m)).
  { eapply ap_le; [eapply (ap_rnd F HF), ap_add; [exact S2|exact B3]| |]; unfold e15, e20; lra. }
  eapply ap_le; [eapply (ap_rnd F HF), ap_add; [exact S3|exact B4]| |]; unfold e15, e20; lra.
Qed.
Lemma rk4_ap : exists z z', rk4_step y dt dVN gN = Ret z /\ rk4_step_f F pow2 pow15 y dt' dVN' gN' = Ret z' /\
  ap (vx (fst z')) (vx (fst z)) 8 (3 / 2) /\ ap (vy (fst z')) (vy (fst z)) 32 8 /\ ap (vz (fst z')) (vz (fst z)) (kA + 500000) 110000 /\
  ap (vx (snd z')) (vx (snd z)) (kA + 20000) 1200 /\ ap (vy (snd z')) (vy (snd z)) (kA + 20000) 1200 /\ ap (vz (snd z')) (vz (snd z)) (kA + 20000) 1200.
Proof.
  destruct (dyn_state _ _ start_ap) as (f1 & f1' & E1 & E1' & R1). pose proof (half_stage _ _ R1) as S2.
  destruct (dyn_state _ _ S2) as (f2 & f2' & E2 & E2' & R2). pose proof (half_stage _ _ R2) as S3.
  destruct (dyn_state _ _ S3) as (f3 & f3' & E3 & E3' & R3). pose proof (full_stage _ _ R3) as S4.
  destruct (dyn_state _ _ S4) as (f4 & f4' & E4 & E4' & R4).
  unfold rk4_step, rk4_step_f. cbv zeta. rewrite E1, E1'. cbn [bind]. rewrite E2, E2'. cbn [bind]. rewrite E3, E3'. cbn [bind]. rewrite E4, E4'. cbn [bind].
  do 2 eexists. split; [reflexivity|]. split; [reflexivity|].
  destruct R1 as (A1 & A2 & A3 & A4 & A5 & A6), R2 as (A7 & A8 & A9 & A10 & A11 & A12), R3 as (A13 & A14 & A15 & A16 & A17 & A18), R4 as (A19 & A20 & A21 & A22 & A23 & A24).
  comps. unfold y. cbn [fst snd vx vy vz]. fold r.
  six; (eapply ap_le; [eapply comb; try eassumption; lra|lra|lra]).
Qed.
End Step.
