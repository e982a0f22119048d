(** Rounding errors of the J2000 / ECEF rotation: the hour angle, the Earth
    orientation parameters and the whole function. *)
From Coq Require Import Reals ZArith List String Bool Lra Lia Psatz.
From Flocq Require Import Core.
From Verif Require Import Base BaseVec SpecRot SpecEop SpecEarth SpecCalendar SpecJ2k ModelDate ModelEop ModelJ2k ModelHourFloat ModelJ2kFloat ModelStrapdownFloat SpecFloatOps
  SpecJ2kFloat ProofVec ProofPi ProofDate ProofMjd ProofRnd ProofJ2k ProofStrapdownFloat ProofStrapdownFloat2 ProofGravityFloat ProofHourFloat ProofJ2kFloat ProofJ2kFloat2 ProofJ2kFloat3.
Import ListNotations.
Open Scope R_scope.

Section Float.
Variable F : FloatOps.
Hypothesis HF : float_ok F.
Notation u := u64.
Notation r := (frnd F).

Ltac bn := lazymatch goal with
  | H : ap ?x ?y _ _ |- ap ?x ?y _ _ => exact H
  | |- ap (frnd _ _) _ _ _ => eapply (ap_rnd F HF); bn
  | |- ap (_ * _) (_ * _) _ _ => eapply ap_mul; [bn|bn]
  | |- ap (_ / _) (_ / _) _ _ => eapply ap_divc; [lra|bn]
  | |- ap (_ + _) (_ + _) _ _ => eapply ap_add; [bn|bn]
  | |- ap (_ - _) (_ - _) _ _ => eapply ap_sub; [bn|bn]
  | |- ap (- _) (- _) _ _ => eapply ap_opp; bn
  | |- ap ?x ?x _ _ => apply ap_const; lra end.
Ltac ab := eapply ap_le; [bn| |]; num.

(** ** Hour angle *)
Lemma two_pi_ap : ap (r (2 * r PI)) (2 * PI) 14 7.
Proof. pose proof pi_ap as P. ab. Qed.
Lemma gms_bound m g : gmsTime_f r m = Ret g -> Rabs g <= 7.
Proof.
  unfold gmsTime_f. cbv zeta. set (q := r (_ / 86400)). intros E. injection E as <-.
  assert (B : 0 <= q - Rfloor q <= 1) by (unfold Rfloor; pose proof (Zfloor_lb q); pose proof (Zfloor_ub q); lra).
  clearbody q. assert (A : ap (q - Rfloor q) (q - Rfloor q) 0 1) by (apply ap_exact, Rabs_le; lra).
  pose proof PI_bounds as PB. assert (P2 : ap PI PI 0 (3142 / 1000)) by (apply ap_exact, Rabs_le; lra).
  assert (C : ap (r (r (2 * r PI) * r (q - Rfloor q))) (2 * PI * (q - Rfloor q)) 100 (63 / 10)) by ab.
  apply ap_abs in C. eapply Rle_trans; [exact C|]. num.
Qed.

Lemma gst_close ut' ut tt' tt : Rabs (ut' - ut) <= 149 / 10000000000000 -> Rabs (ut - 51544.5) <= 73049 ->
  Rabs (tt' - tt) <= 15 / 1000000000000 -> Rabs (tt - 51544.5) <= 73049 ->
  exists g g' dpsi' deps' k, gmsTime ut = Ret g /\ nutationAngles_f F tt' = Ret (dpsi', deps') /\ gsTime_f F ut' tt' = Ret g' /\
    ap dpsi' (dpsi_of (centuries tt)) 610 (1 / 10000) /\ ap deps' (deps_of (centuries tt)) 610 (1 / 10000) /\
    Rabs (g' - (g + dpsi_of (centuries tt) * cos (obliquity (centuries tt)) + 2 * PI * IZR k)) <= 97 / 1000000000000.
Proof.
  intros Hu Ru Ht Rt. destruct (nutation_ap F HF tt' tt Ht) as (dpsi' & deps' & EN & A1 & A2); [lra|].
  change ((tt - mjdJ2000) / 36525) with (centuries tt) in A1, A2.
  pose proof (obliquity_ap F HF tt' tt Ht ltac:(lra)) as AO.
  pose proof (Rabs_le_inv _ _ Hu) as Hu2. pose proof (Rabs_le_inv _ _ Ru) as Ru2.
  destruct (gms_float F HF ut') as (g2 & g1 & k1 & E2 & E1 & K1); [apply Rabs_le; lra|].
  destruct (gms_rate ut ut') as (g & g2' & k2 & Eg & E2' & K2); [unfold centuries; apply Rabs_le; lra..|].
  rewrite E2' in E2. injection E2 as ->. pose proof (gms_bound _ _ E1) as B1. pose proof PI_bounds as PB.
  unfold gsTime_f. rewrite E1, EN. cbn [bind fst].
  set (T := centuries tt) in *. set (ep' := meanObliquity_f F tt') in *. set (ep := obliquity T) in *. clearbody ep ep'.
  assert (AC : ap (fcos F ep') (cos ep) 12 1).
  { destruct AO as (AO & _). split; [|apply cos_abs]. destruct HF as (_ & _ & _ & C). specialize (C ep').
    eapply Rle_trans; [eapply abs_tri; [exact C|eapply Rle_trans; [apply cos_lip|exact AO]]|]. lra. }
  assert (AE : ap (r (dpsi' * fcos F ep')) (dpsi_of T * cos ep) 611 (1 / 10000)) by ab.
  set (q' := r (dpsi' * fcos F ep')) in *. set (q := dpsi_of T * cos ep) in *. clearbody q q'.
  assert (AG : ap g1 g1 0 7) by now apply ap_exact.
  assert (AS : ap (r (g1 + q')) (g1 + q) 619 (7001 / 1000)) by ab.
  pose proof (ap_abs _ _ _ _ AS) as S2. set (s' := r (g1 + q')) in *. clearbody s'.
  destruct two_pi_ap as (P1 & _). set (P' := r (2 * r PI)) in *. clearbody P'.
  pose proof u64_val as UV. apply Rabs_le_inv in P1. rewrite UV in P1. assert (PP : 6 < P' < 7) by lra.
  destruct (fmodc_ok s' P') as (j & -> & B & _); [lra|].
  assert (J : Rabs (IZR j) <= 3).
  { assert (S3 : -8 <= s' <= 8) by (apply Rabs_le_inv in S2; revert S2; num).
    assert (Rabs (IZR j * P') <= 15) by (apply Rabs_le; lra). rewrite Rabs_mult, (Rabs_right P') in H by lra.
    pose proof (Rabs_pos (IZR j)). nra. }
  exists g, (s' - IZR j * P'), dpsi', deps', (k1 + k2 - j)%Z.
  split; [exact Eg|]. split; [reflexivity|]. split; [reflexivity|]. split; [exact A1|]. split; [exact A2|].
  rewrite minus_IZR, plus_IZR. destruct AS as (AS & _). apply Rabs_le_inv in AS. rewrite UV in AS. apply Rabs_le_inv in K1.
  assert (K3 : Rabs ((g2 - g) / (2 * PI) - IZR k2) <= 14971 / 1000000000000000).
  { assert (PH : 2 / 10 ^ 10 * Rabs (ut' - ut) + 2 / 10 ^ 14 <= 21 / 1000000000000000) by (pose proof (Rabs_pos (ut' - ut)); nra).
    set (b := 2 / 10 ^ 10 * Rabs (ut' - ut) + 2 / 10 ^ 14) in *. set (z := (g2 - g) / (2 * PI)) in *. clearbody b z.
    apply Rabs_le_inv in K2. apply Rabs_le. split; lra. }
  assert (K4 : Rabs (g2 - g - 2 * PI * IZR k2) <= 14971 / 1000000000000000 * (2 * PI)).
  { replace (g2 - g - 2 * PI * IZR k2) with (((g2 - g) / (2 * PI) - IZR k2) * (2 * PI)) by (field; lra).
    rewrite Rabs_mult, (Rabs_right (2 * PI)) by lra. apply Rmult_le_compat_r; lra. }
  assert (K5 : Rabs (IZR j * (P' - 2 * PI)) <= 1 / 100000000000000).
  { rewrite Rabs_mult. apply Rle_trans with (3 * (14 * / 9007199254740992)); [|lra].
    apply Rmult_le_compat; auto using Rabs_pos. apply Rabs_le. lra. }
  apply Rabs_le_inv in K4. apply Rabs_le_inv in K5. apply Rabs_le.
  assert (TP : 6 < 2 * PI < 63 / 10) by lra. set (tp := 2 * PI) in *. clearbody tp.
  replace (s' - IZR j * P' - (g + q + tp * (IZR k1 + IZR k2 - IZR j))) with
    ((s' - (g1 + q)) + (g1 - (g2 + tp * IZR k1)) + (g2 - g - tp * IZR k2) - IZR j * (P' - tp)) by ring.
  set (t1 := s' - (g1 + q)) in *. set (t2 := g1 - (g2 + tp * IZR k1)) in *. set (t3 := g2 - g - tp * IZR k2) in *. set (t4 := IZR j * (P' - tp)) in *.
  clearbody t1 t2 t3 t4. lra.
Qed.

(** ** The frame rotation *)
Definition frame (ut tt x y : R) (A : mat3) : Prop :=
  let T := centuries tt in
  exists g k, gmsTime ut = Ret g /\
    A = whole_mat x y (g + dpsi_of T * cos (obliquity T) - IZR k * (2 * PI)) (obliquity T) (dpsi_of T)
      (- obliquity T - deps_of T) (prec_zeta T) (prec_z T) (prec_theta T).

Lemma frame_close ut' ut tt' tt x' x y' y A : Rabs (ut' - ut) <= 149 / 10000000000000 -> Rabs (ut - 51544.5) <= 73049 ->
  Rabs (tt' - tt) <= 15 / 1000000000000 -> Rabs (tt - 51544.5) <= 73049 ->
  Rabs (x' - x) <= 700 * u -> Rabs (y' - y) <= 700 * u -> frame ut tt x y A ->
  exists A', frame_f F ut' tt' x' y' = Ret A' /\ close_to (/ 10000000000) A' (mvmul A).
Proof.
  intros Hu Ru Ht Rt Hx Hy (g & k0 & Eg & ->).
  destruct (gst_close ut' ut tt' tt Hu Ru Ht Rt) as (g0 & g' & dpsi' & deps' & k & Eg0 & EN & EG & A1 & A2 & KG).
  rewrite Eg in Eg0. injection Eg0 as <-.
  destruct (precession_ap F HF tt' tt Ht ltac:(lra)) as (zeta & z & theta & EP & P1 & P2 & P3).
  change ((tt - mjdJ2000) / 36525) with (centuries tt) in P1, P2, P3.
  pose proof (obliquity_ap F HF tt' tt Ht ltac:(lra)) as AO. set (T := centuries tt) in *.
  unfold frame_f, computePrecession_f, computeNutation_f, computeGreenwichHourAngle_f. rewrite EP, EN, EG. cbn [bind].
  eexists. split; [reflexivity|].
  eapply close_le.
  - eapply close_trans; [apply (whole_f_close F HF)|].
    eapply (whole_near _ _ _ _ _ _ _ _ _ _ _ _ _ _ _ _ _ _ (k + k0) (700 * u)); try assumption.
    + replace (g + dpsi_of T * cos (obliquity T) - IZR k0 * (2 * PI) + 2 * PI * IZR (k + k0)) with
        (g + dpsi_of T * cos (obliquity T) + 2 * PI * IZR k) by (rewrite plus_IZR; ring). exact KG.
    + destruct AO as (AO & _). eapply Rle_trans; [exact AO|]. pose proof u64_bounds. lra.
    + destruct A1 as (A1 & _). eapply Rle_trans; [exact A1|]. pose proof u64_bounds. lra.
    + assert (AB : ap (r (- meanObliquity_f F tt' - deps')) (- obliquity T - deps_of T) 700 1) by ab. apply AB.
    + destruct P1 as (P1 & _). eapply Rle_trans; [exact P1|]. pose proof u64_bounds. lra.
    + destruct P2 as (P2 & _). eapply Rle_trans; [exact P2|]. pose proof u64_bounds. lra.
    + destruct P3 as (P3 & _). eapply Rle_trans; [exact P3|]. pose proof u64_bounds. lra.
  - rewrite u64_val. lra.
Qed.

(** ** Earth orientation parameters *)
Lemma at_in l i v P : at_ l i = Ret v -> Forall P l -> P v.
Proof.
  unfold at_. intros E H. destruct (nth_error l i) eqn:N; [|discriminate]. injection E as <-.
  rewrite Forall_forall in H. apply H. eapply nth_error_In. exact N.
Qed.

Lemma mix_ap f' f p q b : ap f' f 67000 1 -> Rabs p <= b -> Rabs q <= b -> 0 <= b <= 10 ->
  ap (r (p + r (r (q - p) * f'))) (p + (q - p) * f) 1350000 30.
Proof.
  intros Hf Hp Hq Hb. assert (P : ap p p 0 10) by (apply ap_exact; lra). assert (Q : ap q q 0 10) by (apply ap_exact; lra). ab.
Qed.

Lemma eop_close st x' x : eop_sane (eops st) -> Zfloor x' = Zfloor x -> Rabs (x' - x) <= 74 / 10000000000000 ->
  match getCurrentEop st x (EO 0 0 0 0 0) with
  | Ret (true, o) => exists o', getCurrentEop_f F st x' = Ret (Some o') /\ o_tai o' = o_tai o /\ Rabs (o_tai o) <= 1000 /\
      Rabs (o_xPole o' - o_xPole o) <= 700 * u /\ Rabs (o_yPole o' - o_yPole o) <= 700 * u /\ ap (o_ut1 o') (o_ut1 o) 1350000 30
  | Ret (false, _) => getCurrentEop_f F st x' = Ret None
  | Undef => getCurrentEop_f F st x' = Undef
  | _ => False
  end.
Proof.
  intros (HX & HY & HU & HT) Hfl Hx. unfold getCurrentEop, getCurrentEop_f.
  destruct (eopsSet st); cbn [negb]; [|reflexivity].
  assert (E : Rfloor x' = Rfloor x) by (unfold Rfloor; now rewrite Hfl). rewrite E.
  destruct (findIndex (Rfloor x) (e_mjd (eops st))) as [i|]; [|reflexivity].
  set (j := if Nat.eqb i _ then i else S i). clearbody j. cbv zeta.
  assert (AT : forall l k, (exists v, at_ l k = Ret v) \/ at_ l k = Undef).
  { intros l k. unfold at_. destruct (nth_error l k); eauto. }
  set (t := eops st) in *. clearbody t.
  destruct (AT (e_xPole t) i) as [(px & Ex)|Ex]; rewrite ?Ex; cbn [bind]; [|reflexivity].
  destruct (AT (e_yPole t) i) as [(py & Ey)|Ey]; rewrite ?Ey; cbn [bind]; [|reflexivity].
  destruct (AT (e_ut1 t) i) as [(pu & Eu)|Eu]; rewrite ?Eu; cbn [bind]; [|reflexivity].
  destruct (AT (e_lod t) i) as [(pl & El)|El]; rewrite ?El; cbn [bind]; [|reflexivity].
  destruct (AT (e_tai t) i) as [(pt & Et)|Et]; rewrite ?Et; cbn [bind]; [|reflexivity].
  destruct (AT (e_xPole t) j) as [(qx & Fx)|Fx]; rewrite ?Fx; cbn [bind]; [|reflexivity].
  destruct (AT (e_yPole t) j) as [(qy & Fy)|Fy]; rewrite ?Fy; cbn [bind]; [|reflexivity].
  destruct (AT (e_ut1 t) j) as [(qu & Fu)|Fu]; rewrite ?Fu; cbn [bind]; [|reflexivity].
  destruct (AT (e_lod t) j) as [(ql & Fl)|Fl]; rewrite ?Fl; cbn [bind]; [|reflexivity].
  assert (AF : ap (r (x' - Rfloor x)) (x - Rfloor x) 67000 1).
  { assert (A : ap (x' - Rfloor x) (x - Rfloor x) 66700 1).
    { split.
      - replace (x' - Rfloor x - (x - Rfloor x)) with (x' - x) by ring. rewrite u64_val. lra.
      - unfold Rfloor. pose proof (Zfloor_lb x). pose proof (Zfloor_ub x). apply Rabs_le. lra. }
    ab. }
  set (f' := r (x' - Rfloor x)) in *. set (f := x - Rfloor x) in *. clearbody f f'.
  pose proof (mix_ap f' f px qx 10 AF (at_in _ _ _ _ Ex HX) (at_in _ _ _ _ Fx HX) ltac:(lra)) as MX.
  pose proof (mix_ap f' f py qy 10 AF (at_in _ _ _ _ Ey HY) (at_in _ _ _ _ Fy HY) ltac:(lra)) as MY.
  pose proof (mix_ap f' f pu qu 10 AF (at_in _ _ _ _ Eu HU) (at_in _ _ _ _ Fu HU) ltac:(lra)) as MU.
  destruct (divA F HF _ _ _ _ MX) as (-> & (DX & _)). destruct (divA F HF _ _ _ _ MY) as (-> & (DY & _)). cbn [bind].
  pose proof u64_bounds as UB.
  eexists. split; [reflexivity|]. cbn [o_tai o_xPole o_yPole o_ut1]. split; [reflexivity|].
  split; [exact (at_in _ _ _ _ Et HT)|]. split; [eapply Rle_trans; [exact DX|apply Rmult_le_compat_r; lra]|].
  split; [eapply Rle_trans; [exact DY|apply Rmult_le_compat_r; lra]|exact MU].
Qed.
End Float.
