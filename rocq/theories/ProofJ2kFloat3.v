(** Rounding errors of the angles of the J2000 / ECEF rotation, continued. *)
From Coq Require Import Reals ZArith List Lra Lia Psatz.
From Flocq Require Import Core.
From Verif Require Import Base BaseVec SpecEop SpecJ2k ModelEop ModelJ2k ModelHourFloat ModelJ2kFloat ModelStrapdownFloat SpecFloatOps ProofVec ProofPi ProofJ2k
  ProofStrapdownFloat ProofGravityFloat ProofHourFloat ProofJ2kFloat2.
Import ListNotations.
Open Scope R_scope.

Section Float.
Variable F : FloatOps.
Hypothesis HF : float_ok F.
Notation u := u64.
Notation r := (frnd F).

Ltac bn := lazymatch goal with
  | H : ap ?x ?y _ _ |- ap ?x ?y _ _ => exact H
  | |- ap (frnd _ _) _ _ _ => eapply (ap_rnd F HF); bn
  | |- ap (_ * _) (_ * _) _ _ => eapply ap_mul; [bn|bn]
  | |- ap (_ / _) (_ / _) _ _ => eapply ap_divc; [lra|bn]
  | |- ap (_ + _) (_ + _) _ _ => eapply ap_add; [bn|bn]
  | |- ap (_ - _) (_ - _) _ _ => eapply ap_sub; [bn|bn]
  | |- ap (- _) (- _) _ _ => eapply ap_opp; bn
  | |- ap ?x ?x _ _ => apply ap_const; lra end.
Ltac ab := eapply ap_le; [bn| |]; num.

Section At.
Variables tt' tt : R.
Hypothesis Htt : Rabs (tt' - tt) <= 15 / 1000000000000.
Hypothesis Hr : Rabs (tt - 51544.5) <= 73050.
Let T := (tt - mjdJ2000) / 36525.
Let T' := r (r (tt' - mjdJ2000) / 36525).

Lemma T_ap : ap T' T 8 2.
Proof.
  unfold T', T, mjdJ2000. assert (A : ap (tt' - 51544.5) (tt - 51544.5) 135200 73050).
  { split; [|exact Hr]. replace (tt' - 51544.5 - (tt - 51544.5)) with (tt' - tt) by ring. rewrite u64_val. lra. }
  ab.
Qed.

Lemma red x' x : ap x' x 48000000000 4000000000 ->
  exists y j, reduceArg_f F x' = Ret y /\ ap y (x - IZR j * 1296000) 50000000000 1296001.
Proof.
  intros H. destruct (reduce_f F HF x' x _ _ H) as (y & j & E & A); [lra|]. exists y, j. split; [exact E|].
  eapply ap_le; [exact A|lra|lra].
Qed.

Lemma zero : ap 0 0 (kk 0 0) 0.
Proof. unfold kk. cbn [INR]. split; rewrite ?Rminus_0_r, Rabs_R0; lra. Qed.

Lemma nutation_ap : exists dpsi' deps', nutationAngles_f F tt' = Ret (dpsi', deps') /\
  ap dpsi' (dpsi_of T) 610 (1 / 10000) /\ ap deps' (deps_of T) 610 (1 / 10000).
Proof.
  pose proof T_ap as HT. unfold nutationAngles_f. cbv zeta.  fold T'. clearbody T' T.
  assert (H2 : ap (r (T' * T')) (T * T) 37 4) by ab. set (T2' := r (T' * T')) in *. clearbody T2'.
  assert (H3 : ap (r (T2' * T')) (T * T * T) 115 8) by ab. set (T3' := r (T2' * T')) in *. clearbody T3'.
  assert (Cl : ap (r (1325 * (360 * 3600) + r 715922.633)) (1325 * (360 * 3600) + 715922.633) 1720000000 1717915923) by ab.
  assert (Clp : ap (r (99 * (360 * 3600) + r 1292581.224)) (99 * (360 * 3600) + 1292581.224) 1720000000 1717915923) by ab.
  assert (CF : ap (r (1342 * (360 * 3600) + r 295263.137)) (1342 * (360 * 3600) + 295263.137) 1745000000 1740000000) by ab.
  assert (CD : ap (r (1236 * (360 * 3600) + r 1105601.328)) (1236 * (360 * 3600) + 1105601.328) 1720000000 1717915923) by ab.
  assert (CO : ap (r (5 * (360 * 3600) + r 482890.539)) (5 * (360 * 3600) + 482890.539) 1720000000 1717915923) by ab.
  assert (A1 : ap (r (r (r (r 485866.733 + r (r (1325 * (360 * 3600) + r 715922.633) * T')) + r (r 31.310 * T2')) + r (r 0.064 * T3')))
    (485866.733 + (1325 * (360 * 3600) + 715922.633) * T + 31.310 * (T * T) + 0.064 * (T * T * T)) 48000000000 4000000000) by ab.
  assert (A2 : ap (r (r (r (r 1287099.804 + r (r (99 * (360 * 3600) + r 1292581.224) * T')) - r (r 0.577 * T2')) - r (r 0.012 * T3')))
    (1287099.804 + (99 * (360 * 3600) + 1292581.224) * T - 0.577 * (T * T) - 0.012 * (T * T * T)) 48000000000 4000000000) by ab.
  assert (A3 : ap (r (r (r (r 335778.877 + r (r (1342 * (360 * 3600) + r 295263.137) * T')) - r (r 13.257 * T2')) + r (r 0.011 * T3')))
    (335778.877 + (1342 * (360 * 3600) + 295263.137) * T - 13.257 * (T * T) + 0.011 * (T * T * T)) 48000000000 4000000000) by ab.
  assert (A4 : ap (r (r (r (r 1072261.307 + r (r (1236 * (360 * 3600) + r 1105601.328) * T')) - r (r 6.891 * T2')) + r (r 0.019 * T3')))
    (1072261.307 + (1236 * (360 * 3600) + 1105601.328) * T - 6.891 * (T * T) + 0.019 * (T * T * T)) 48000000000 4000000000) by ab.
  assert (A5 : ap (r (r (r (r 450160.280 - r (r (5 * (360 * 3600) + r 482890.539) * T')) + r (r 7.455 * T2')) + r (r 0.008 * T3')))
    (450160.280 - (5 * (360 * 3600) + 482890.539) * T + 7.455 * (T * T) + 0.008 * (T * T * T)) 48000000000 4000000000) by ab.
  clear Cl Clp CF CD CO H2 H3.
  replace (485866.733 + (1325 * (360 * 3600) + 715922.633) * T + 31.310 * (T * T) + 0.064 * (T * T * T))
    with (arg_l T) in A1 by (unfold arg_l; lra).
  replace (1287099.804 + (99 * (360 * 3600) + 1292581.224) * T - 0.577 * (T * T) - 0.012 * (T * T * T))
    with (arg_lp T) in A2 by (unfold arg_lp; lra).
  replace (335778.877 + (1342 * (360 * 3600) + 295263.137) * T - 13.257 * (T * T) + 0.011 * (T * T * T))
    with (arg_F T) in A3 by (unfold arg_F; lra).
  replace (1072261.307 + (1236 * (360 * 3600) + 1105601.328) * T - 6.891 * (T * T) + 0.019 * (T * T * T))
    with (arg_D T) in A4 by (unfold arg_D; lra).
  replace (450160.280 - (5 * (360 * 3600) + 482890.539) * T + 7.455 * (T * T) + 0.008 * (T * T * T))
    with (arg_Om T) in A5 by (unfold arg_Om; lra).
  destruct (red _ _ A1) as (l' & kl & -> & L1). destruct (red _ _ A2) as (lp' & klp & -> & L2). destruct (red _ _ A3) as (Fa' & kF & -> & L3).
  destruct (red _ _ A4) as (D' & kD & -> & L4). destruct (red _ _ A5) as (Om' & kO & -> & L5). cbn [bind]. clear A1 A2 A3 A4 A5.
  destruct table_sums as (S5 & S6 & S7 & S8).
  destruct (fold_ap F HF _ _ _ _ _ _ _ _ _ _ _ _ HT L1 L2 L3 L4 L5 nutationTable (0, 0) (0, 0) 0%nat 0 0) as (Q1 & Q2).
  - exact table_multiples.
  - exact zero.
  - exact zero.
  - unfold W5. rewrite S5, S6. lra.
  - unfold W7. rewrite S7, S8. lra.
  - vm_compute. lia.
  - rewrite (nutation_fold T _ _ _ _ _ kl klp kF kD kO) in Q1, Q2 by reflexivity. cbn [fst snd] in Q1, Q2. rewrite !Rplus_0_l in Q1, Q2.
    set (s' := fold_left _ nutationTable (0, 0)) in *. clearbody s'.
    set (sp := series (term_psi T) nutationTable) in *. set (se := series (term_eps T) nutationTable) in *.
    assert (B1 : ap (r (r 0.00001 * fst s')) (0.00001 * sp) 120000000 20) by ab.
    assert (B2 : ap (r (r 0.00001 * snd s')) (0.00001 * se) 120000000 20) by ab.
    destruct (divA F HF _ _ _ _ B1) as (-> & E1). destruct (divA F HF _ _ _ _ B2) as (-> & E2). cbn [bind].
    do 2 eexists. split; [reflexivity|]. rewrite arcs_inv in E1, E2. unfold dpsi_of, deps_of. fold sp. fold se.
    split; (eapply ap_le; [eassumption|lra|lra]).
Qed.

Lemma rad_ap : ap (rad_f F) rad (1 / 10) (18 / 1000).
Proof. pose proof pi_ap as P. unfold rad_f, rad.  assert (A : ap (r PI / 180) (PI / 180) (18 / 1000) (18 / 1000)) by ab. ab. Qed.

Lemma obliquity_ap : ap (meanObliquity_f F tt') (obliquity (centuries tt)) 10 (1 / 2).
Proof.
  rewrite <- obliquity_ok. unfold meanObliquity_f, meanObliquity. cbv zeta.  fold T' T. pose proof T_ap as HT. pose proof rad_ap as HR. clearbody T' T.
  ab.
Qed.

Lemma precession_ap : exists zeta z theta, precessionAngles_f F mjdJ2000 tt' = Ret (zeta, z, theta) /\
  ap zeta (prec_zeta T) 2 1 /\ ap z (prec_z T) 3 1 /\ ap theta (prec_theta T) 2 1.
Proof.
  unfold precessionAngles_f. cbv zeta.  fold T'. pose proof T_ap as HT.
  assert (H0 : ap (r (r (mjdJ2000 - mjdJ2000) / 36525)) 0 1 0).
  { assert (A : ap (mjdJ2000 - mjdJ2000) 0 0 0) by (replace (mjdJ2000 - mjdJ2000) with 0 by ring; split; rewrite ?Rminus_0_r, Rabs_R0; lra).
    assert (B : ap (r (r (mjdJ2000 - mjdJ2000) / 36525)) (0 / 36525) 1 0) by ab.
    now replace (0 / 36525) with 0 in B by lra. }
  set (T0 := r (r (mjdJ2000 - mjdJ2000) / 36525)) in *. clearbody T0 T' T.
  assert (A1 : ap (r (r (r (r 2306.2181 + r (r (r 1.39656 - r (r 0.000139 * T0)) * T0))
                 + r (r (r (r 0.30188 - r (r 0.000344 * T0)) + r (r 0.017998 * T')) * T')) * T'))
     ((2306.2181 + (1.39656 - 0.000139 * 0) * 0 + (0.30188 - 0.000344 * 0 + 0.017998 * T) * T) * T) 40000 4620) by ab.
  assert (A2 : ap (r (r (r (r (r 0.79280 + r (r 0.000411 * T0)) + r (r 0.000205 * T')) * T') * T'))
     ((0.79280 + 0.000411 * 0 + 0.000205 * T) * T * T) 100 4) by ab.
  assert (A3 : ap (r (r (r (r 2004.3109 - r (r (r 0.85330 + r (r 0.000217 * T0)) * T0))
                  - r (r (r (r 0.42665 + r (r 0.000217 * T0)) + r (r 0.041833 * T')) * T')) * T'))
     ((2004.3109 - (0.85330 + 0.000217 * 0) * 0 - (0.42665 + 0.000217 * 0 + 0.041833 * T) * T) * T) 40000 4620) by ab.
  destruct (divA F HF _ _ _ _ A1) as (-> & B1). destruct (divA F HF _ _ _ _ A2) as (-> & B2). destruct (divA F HF _ _ _ _ A3) as (-> & B3).
  cbn [bind].  clear A1 A2 A3.
  set (z1 := r (_ / Arcs_f F)) in B1 |- *. set (w1 := r (_ / Arcs_f F)) in B2 |- *. set (t1 := r (_ / Arcs_f F)) in B3 |- *. clearbody z1 w1 t1.
  do 3 eexists. split; [reflexivity|]. split; [|split].
  - eapply ap_le; [|apply Rle_refl|apply Rle_refl]. replace (prec_zeta T) with
      ((2306.2181 + (1.39656 - 0.000139 * 0) * 0 + (0.30188 - 0.000344 * 0 + 0.017998 * T) * T) * T / Arcs); [ab|].
    rewrite arcs_inv. unfold prec_zeta. f_equal. lra.
  - replace (prec_z T) with
      ((2306.2181 + (1.39656 - 0.000139 * 0) * 0 + (0.30188 - 0.000344 * 0 + 0.017998 * T) * T) * T / Arcs +
       (0.79280 + 0.000411 * 0 + 0.000205 * T) * T * T / Arcs); [ab|].
    rewrite !arcs_inv. unfold prec_z. lra.
  - replace (prec_theta T) with
      ((2004.3109 - (0.85330 + 0.000217 * 0) * 0 - (0.42665 + 0.000217 * 0 + 0.041833 * T) * T) * T / Arcs); [ab|].
    rewrite arcs_inv. unfold prec_theta. f_equal. lra.
Qed.
End At.
End Float.
