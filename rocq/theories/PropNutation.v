(** Theorem C150: the nutation of the code is the IAU 1980 theory. *)
From Coq Require Import Reals ZArith List Lra Lia.
From Verif Require Import Base BaseVec SpecRot SpecEop SpecJ2k SpecNutation SpecFloatOps ModelJ2k ModelJ2kFloat ModelStrapdownFloat ProofJ2k ProofJ2k2 ProofNutation
  ProofGravityFloat ProofStrapdownFloat ProofStrapdownFloat2 ProofJ2kFloat3.
Import ListNotations.
Open Scope R_scope.

(** C150: for every date the code returns the sums over the 106 published terms
    of the published arguments. *)
Theorem C150_nutation_is_iau1980 : forall mjd,
  nutationAngles mjd = Ret (true, (psi1980 (centuries mjd), eps1980 (centuries mjd))).
Proof. exact nutation_is. Qed.
Print Assumptions C150_nutation_is_iau1980.
(** So the nutation matrix moves the equinox and changes the obliquity by the
    published amounts: ecliptic coordinates of date are those of the mean
    equinox, with the longitude increased by the nutation in longitude. *)
Theorem C150_nutation_matrix : forall tt M, let T := centuries tt in
  exists N, computeNutation tt M = Ret (true, N) /\
    forall l b, mvmul N (ecliptic (obliquity T) l b) = ecliptic (obliquity T + eps1980 T) (l + psi1980 T) b.
Proof.
  intros tt M T. destruct (nutation_geometry tt M) as (N & dpsi & deps & E & EN & K). exists N. split; [exact E|].
  rewrite nutation_is in EN. injection EN as <- <-. exact K.
Qed.
Print Assumptions C150_nutation_matrix.
(** The hour angle is the mean one plus the published equation of the equinoxes. *)
Theorem C150_equation_of_the_equinoxes : forall ut1 tt M, let T := centuries tt in
  exists R g, computeGreenwichHourAngle ut1 tt M = Ret (true, R) /\ gmsTime ut1 = Ret g /\
    forall v, mvmul R v = turn ez (g + psi1980 T * cos (obliquity T)) v.
Proof.
  intros ut1 tt M T. destruct (gha_ok ut1 tt M) as (R & g & dpsi & deps & E & Eg & EN & K). exists R, g.
  rewrite nutation_is in EN. injection EN as <- <-. now repeat split.
Qed.
Print Assumptions C150_equation_of_the_equinoxes.
(** In double arithmetic, within 200 years of 2000: within 7e-14 rad of it. *)
Theorem C150_in_double_arithmetic : forall F tt, float_ok F -> Rabs (tt - 51544.5) <= 73050 -> let T := centuries tt in
  exists dpsi deps, nutationAngles_f F tt = Ret (dpsi, deps) /\
    Rabs (dpsi - psi1980 T) <= 7 / 100000000000000 /\ Rabs (deps - eps1980 T) <= 7 / 100000000000000.
Proof.
  intros F tt HF Ht T. destruct (nutation_ap F HF tt tt) as (p & e & E & (A1 & _) & (A2 & _)); [|exact Ht|].
  { rewrite Rminus_eq_0, Rabs_R0. lra. }
  exists p, e. split; [exact E|]. rewrite <- dpsi_is, <- deps_is. rewrite u64_val in A1, A2.
  split; [eapply Rle_trans; [apply A1|lra]|eapply Rle_trans; [apply A2|lra]].
Qed.
Print Assumptions C150_in_double_arithmetic.

(** At noon on 1 January 2000 the node is between 120 and 135 degrees and the
    nutation in longitude between -17.2'' and -9.9'' (published: -13.9''). *)
Example C150_case : exists dpsi deps, nutationAngles 51544.5 = Ret (true, (dpsi, deps)) /\
  -17.2 * arcsec < dpsi < -9.9 * arcsec.
Proof.
  destruct (nutation_main 51544.5) as (p & e & E & A & _). exists p, e. split; [exact E|].
  assert (T0 : centuries 51544.5 = 0) by (unfold centuries; lra). rewrite T0 in A. rewrite Rabs_R0 in A.
  assert (Ha : 0 < arcsec) by (unfold arcsec; pose proof PI_RGT_0; lra).
  assert (B : Rabs (main_psi 0 + 17.1996 * sin (arg_Om 0 * arcsec)) <= 1.3187 + 0.2274 + 0.2062 + 0.1426).
  { unfold main_psi. set (a := sin (arg_Om 0 * arcsec)).
    set (s1 := sin _). set (s2 := sin _). set (s3 := sin _). set (s4 := sin _).
    assert (S1 : -1 <= s1 <= 1) by apply SIN_bound. assert (S2 : -1 <= s2 <= 1) by apply SIN_bound.
    assert (S3 : -1 <= s3 <= 1) by apply SIN_bound. assert (S4 : -1 <= s4 <= 1) by apply SIN_bound.
    clearbody a s1 s2 s3 s4. apply Rabs_le. lra. }
  assert (C : 0.707 < sin (arg_Om 0 * arcsec) < 0.867).
  { assert (Eo : arg_Om 0 * arcsec = 450160.28 / 648000 * PI) by (unfold arg_Om, arcsec; lra). rewrite Eo.
    assert (P := PI_RGT_0). rewrite <- sin_PI_x. set (t := PI - 450160.28 / 648000 * PI).
    assert (T1 : PI / 4 < t) by (unfold t; lra). assert (T2 : t < PI / 3) by (unfold t; lra).
    assert (L1 : sin (PI / 4) < sin t) by (apply sin_increasing_1; lra).
    assert (L2 : sin t < sin (PI / 3)) by (apply sin_increasing_1; lra).
    rewrite sin_PI4 in L1. rewrite sin_PI3 in L2.
    assert (Q2 : sqrt 2 < 1.4143) by (apply Rsqr_incrst_0; [rewrite Rsqr_sqrt; unfold Rsqr; lra|apply sqrt_pos|lra]).
    assert (Q3 : sqrt 3 < 1.733) by (apply Rsqr_incrst_0; [rewrite Rsqr_sqrt; unfold Rsqr; lra|apply sqrt_pos|lra]).
    split; [|lra]. assert (I : 0.707 < 1 / sqrt 2); [|lra].
    assert (0 < sqrt 2) by (apply sqrt_lt_R0; lra).
    apply Rmult_lt_reg_r with (sqrt 2); [lra|]. unfold Rdiv. rewrite Rmult_1_l, Rinv_l by lra. lra. }
  apply Flocq.Core.Raux.Rabs_le_inv in A, B. set (m := main_psi 0) in *. set (s := sin _) in *. clearbody m s.
  assert (L : -16.81 <= m <= -10.26) by lra. split; nra.
Qed.
(** The table has all its terms; the amplitudes in longitude add up to 19.4368''. *)
Example C150_table : List.length iau1980 = 106%nat /\
  fold_right Z.add 0%Z (map (fun t => let 'term _ _ _ _ _ A _ _ _ := t in Z.abs A) iau1980) = 194368%Z.
Proof. split; vm_compute; reflexivity. Qed.
