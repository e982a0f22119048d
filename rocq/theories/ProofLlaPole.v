(** One millimetre from the polar axis the altitude of ecef2Lla is metres off. *)
From Coq Require Import Reals ZArith Lra Lia Psatz.
From Flocq Require Import Core IEEE754.BinarySingleNaN IEEE754.Binary.
From Verif Require Import Base BaseVec SpecRot SpecEarth SpecFloat ModelGravity ModelFrames ModelDate ModelGuardFloat ModelStrapdownFloat ModelFramesFloat
  ModelGravityFloat ModelLlaFloat SpecFloatOps SpecLlaFloat ProofPi ProofVec ProofTrig ProofFrames ProofFrames3 ProofStrapdownFloat
  ProofDate ProofRnd ProofStrapdownFloat2 ProofFramesFloat ProofGravityFloat ProofBowring ProofLlaFloat ProofLlaFloat2.
Open Scope R_scope.

(** 4611728665434404 / 2^62 metres from the axis: 1.00001 mm. *)
Definition pole_x : R := 4611728665434404 / 4611686018427387904.
Definition pole_point : vec3 := V3 pole_x 0 6400000.

Lemma e2_val : 669438002290078 / 100000000000000000 <= e2 <= 669438002290079 / 100000000000000000.
Proof. unfold e2, gp_f. lra. Qed.
Lemma Nr_pole l : - (2 / 10000000000) <= cos l <= 2 / 10000000000 -> 6399593.6258 <= Nr l <= 6399593.6259.
Proof.
  intros C. pose proof (sW_pos l) as P. pose proof (sW_sq l) as S. pose proof e2_val as E.
  assert (W : W2 l = 1 - e2 + e2 * (cos l * cos l)).
  { unfold W2. pose proof (sin2_cos2 l) as T. unfold Rsqr in T. replace (cos l * cos l) with (1 - sin l * sin l) by lra. ring. }
  assert (CC : 0 <= cos l * cos l <= 1 / 10000000000000000000) by nra.
  assert (WB : 1 - e2 <= W2 l <= 1 - e2 + 1 / 1000000000000000000) by (rewrite W; nra). rewrite <- S in WB. set (q := sqrt (W2 l)) in *.
  unfold Nr. fold q. unfold gp_a.
  assert (QB : 6378137 / 6399593.6259 <= q <= 6378137 / 6399593.6258).
  { split; apply Rnot_lt_le; intros H.
    - assert (q * q < 6378137 / 6399593.6259 * (6378137 / 6399593.6259)) by (apply Rmult_le_0_lt_compat; lra). lra.
    - assert (6378137 / 6399593.6258 * (6378137 / 6399593.6258) < q * q) by (apply Rmult_le_0_lt_compat; lra). lra. }
  split.
  - apply Rmult_le_reg_r with q; [lra|]. replace (6378137 / q * q) with 6378137 by (field; lra). lra.
  - apply Rmult_le_reg_r with q; [lra|]. replace (6378137 / q * q) with 6378137 by (field; lra). lra.
Qed.
Lemma sin_low t : 0 <= t -> t - t * t * t <= sin t <= t.
Proof.
  intros T. split; [|destruct (Req_dec t 0) as [E|E]; [rewrite E, sin_0; lra|pose proof (sin_lt_x t); lra]].
  destruct (MVT_abs (fun x => sin x - x) (fun x => cos x - 1) 0 t) as (c & E & C & D).
  { intros x _. apply derivable_pt_lim_minus; [apply derivable_pt_lim_sin|apply derivable_pt_lim_id]. }
  rewrite Rmin_left in C by lra. rewrite Rmax_right in D by lra. rewrite sin_0 in E.
  replace (sin t - t - (0 - 0)) with (sin t - t) in E by ring. rewrite Rminus_0_r, (Rabs_right t) in E by lra.
  assert (H : Rabs (cos c - 1) <= t * t).
  { replace c with (2 * (c / 2)) at 1 by field. rewrite cos_2a_sin. replace (1 - 2 * sin (c / 2) * sin (c / 2) - 1) with (- (2 * (sin (c / 2) * sin (c / 2)))) by ring.
    pose proof (Rle_0_sqr (sin (c / 2))) as S. unfold Rsqr in S. rewrite Rabs_Ropp, Rabs_right by lra.
    assert (B : Rabs (sin (c / 2)) <= c / 2).
    { pose proof (sin_lip (c / 2) 0) as L. rewrite sin_0, !Rminus_0_r, (Rabs_right (c / 2)) in L by lra. exact L. }
    pose proof (Rsqr_abs (sin (c / 2))) as Q. unfold Rsqr in Q. rewrite Q. pose proof (Rabs_pos (sin (c / 2))). nra. }
  pose proof (Rle_abs (- (sin t - t))) as A. rewrite Rabs_Ropp, E in A. pose proof (Rabs_pos (cos c - 1)). nra.
Qed.

(** No double is close enough to the latitude. *)
Lemma no_latitude l : generic_format radix2 (FLT_exp (-1074) 53) l -> Rabs l <= 3.15 ->
  pole_x / 6442844.5 <= cos l <= pole_x / 6442838.1 -> False.
Proof.
  intros G B C. pose proof PI_bounds as P. unfold pole_x in C.
  assert (CA : cos l = cos (Rabs l)) by (unfold Rabs; destruct (Rcase_abs l); [now rewrite cos_neg|reflexivity]). rewrite CA in C.
  assert (A0 := Rabs_pos l). assert (B1 : 1 <= Rabs l).
  { apply Rnot_lt_le. intros L. assert (cos (PI / 3) < cos (Rabs l)) by (apply cos_decreasing_1; lra). rewrite cos_PI3 in *. lra. }
  assert (B2 : Rabs l < PI / 2).
  { apply Rnot_le_lt. intros L. assert (cos (Rabs l) <= 0) by (apply cos_le_0; lra). lra. }
  assert (E : rnd64 (Rabs l) = Rabs l) by (apply round_generic; [apply valid_rnd_N|now apply generic_format_abs]).
  destruct (grid64 (-52) (Rabs l)) as (m & M); [lia|change (bpow radix2 (52 + -52)) with 1; rewrite E, Rabs_right; lra|].
  rewrite E in M. change (bpow radix2 (-52)) with (/ 4503599627370496) in M.
  set (g1 := 7074237751329425 / 4503599627370496). set (g2 := 7074237751329426 / 4503599627370496).
  destruct (Z_le_gt_dec m 7074237751329425) as [H|H].
  - apply IZR_le in H. assert (L : Rabs l <= g1) by (unfold g1; lra).
    assert (K : cos g1 <= cos (Rabs l)) by (apply cos_decr_1; unfold g1 in *; lra).
    rewrite <- sin_shift in K. destruct (sin_low (PI / 2 - g1)) as (S & _); [unfold g1; lra|].
    assert (T : 155211 / 1000000000000000 <= PI / 2 - g1 <= 155213 / 1000000000000000) by (unfold g1; lra).
    set (w := PI / 2 - g1) in *. assert (w * w * w <= 1 / 100000000000000000000000) by (assert (w * w <= 3 / 100000000000000000000) by nra; nra).
    assert (w <= 4611728665434404 / 4611686018427387904 / 6442838.1 + 1 / 100000000000000000000000) by lra. unfold w, g1 in *. lra.
  - assert (H' : (7074237751329426 <= m)%Z) by lia. apply IZR_le in H'. assert (L : g2 <= Rabs l) by (unfold g2; lra).
    assert (K : cos (Rabs l) <= cos g2) by (apply cos_decr_1; unfold g2 in *; lra).
    rewrite <- (sin_shift g2) in K. destruct (sin_low (PI / 2 - g2)) as (_ & S); [unfold g2; lra|]. unfold g2 in *. lra.
Qed.

(** A computed altitude near the true one needs such a double. *)
Lemma inv64 t a c : 1 / 1000000000000000 <= a -> a <= rnd64 t <= c -> a * (1 - 2 / 1000000000000000) <= t <= c * (1 + 2 / 1000000000000000).
Proof.
  intros A H. pose proof (rnd64_model t) as R. pose proof u64_bounds as U. pose proof eta_e20 as E. unfold e20 in E.
  apply Rabs_le_inv in R. set (v := rnd64 t) in *.
  assert (T0 : 0 <= t). { apply Rnot_lt_le. intros N. rewrite (Rabs_left t) in R by lra. nra. }
  rewrite (Rabs_right t) in R by lra. nra.
Qed.
Lemma near64 t a c : 1 / 1000000000000000 <= a -> a <= t <= c -> a * (1 - 2 / 1000000000000000) <= rnd64 t <= c * (1 + 2 / 1000000000000000).
Proof.
  intros A H. pose proof (rnd64_model t) as R. pose proof u64_bounds as U. pose proof eta_e20 as E. unfold e20 in E.
  apply Rabs_le_inv in R. rewrite (Rabs_right t) in R by lra. nra.
Qed.
Lemma alt_needs l N p : Rabs (N - Nr l) <= 1 / 10000000 -> pole_x * (1 - 1 / 100000000000000) <= p <= pole_x * (1 + 1 / 100000000000000) ->
  rnd64 (cos l) <> 0 -> 43244.67 <= rnd64 (rnd64 (p / rnd64 (cos l)) - N) <= 43250.7 -> pole_x / 6442844.5 <= cos l <= pole_x / 6442838.1.
Proof.
  intros HN HP HC HA. apply Rabs_le_inv in HN. pose proof (Nr_bounds l) as NB. unfold gp_a in NB.
  apply inv64 in HA; [|lra]. set (Q := rnd64 (p / rnd64 (cos l))) in *. assert (X : 99999 / 100000 <= pole_x * 1000 <= 100001 / 100000) by (unfold pole_x; lra).
  assert (QB : 6421000 <= Q <= 6500000) by lra. pose proof (inv64 (p / rnd64 (cos l)) 6421000 6500000 ltac:(lra) QB) as QQ.
  set (c' := rnd64 (cos l)) in *. set (q := p / c') in *.
  assert (CE : c' = p / q) by (unfold q; field; repeat split; try exact HC; lra).
  assert (CB : 153 / 1000000000000 <= c' <= 156 / 1000000000000).
  { rewrite CE. split; (apply Rmult_le_reg_r with q; [lra|]); replace (p / q * q) with p by (field; lra); lra. }
  pose proof (inv64 (cos l) (153 / 1000000000000) (156 / 1000000000000) ltac:(lra) CB) as CC. pose proof (Nr_pole l ltac:(lra)) as NP.
  assert (Q2 : 6442838.2 <= Q <= 6442844.4) by lra. pose proof (inv64 (p / c') 6442838.2 6442844.4 ltac:(lra) Q2) as QQ2. fold q in QQ2.
  assert (C2 : pole_x * (1 - 1 / 100000000000000) / (6442844.4 * (1 + 2 / 1000000000000000)) <= c' <= pole_x * (1 + 1 / 100000000000000) / (6442838.2 * (1 - 2 / 1000000000000000))).
  { rewrite CE. split; unfold Rdiv; apply Rmult_le_compat; try lra; try (apply Rlt_le, Rinv_0_lt_compat; lra); apply Rinv_le; lra. }
  assert (Z : 1 / 1000000000000000 <= pole_x * (1 - 1 / 100000000000000) / (6442844.4 * (1 + 2 / 1000000000000000))) by (unfold pole_x; lra).
  pose proof (inv64 (cos l) _ _ Z C2) as C3. unfold pole_x in *. lra.
Qed.

(** The exact altitude. *)
Lemma pole_alt : cos (lat_of pole_point) <> 0 /\ 43247.685 <= rho pole_point / cos (lat_of pole_point) - Nr (lat_of pole_point) <= 43247.687.
Proof.
  assert (RX : rho pole_point = pole_x).
  { unfold rho, pole_point. cbn [vx vy]. rewrite Rmult_0_l, Rplus_0_r. apply sqrt_square. unfold pole_x. lra. }
  assert (X : 1 / 1000 < pole_x < 10001 / 10000000) by (unfold pole_x; lra).
  destruct (th_polar pole_point ltac:(lra)) as (D0 & DD & C & S). rewrite RX in *. cbn [vz pole_point] in DD, C, S.
  set (D := sqrt _) in *. set (c := cos (th_of pole_point)) in *. set (s := sin (th_of pole_point)) in *.
  assert (DL : gp_a * 6400000 <= D). { apply Rsqr_incr_0_var; [|lra]. unfold Rsqr. rewrite DD. pose proof (Rle_0_sqr (gp_b * pole_x)) as Q. unfold Rsqr in Q. lra. }
  assert (CB : 0 <= c <= 2 / 10000000000).
  { rewrite C. split; [apply Rmult_le_pos; [unfold gp_b; lra|apply Rlt_le, Rinv_0_lt_compat; lra]|].
    apply Rmult_le_reg_r with D; [lra|]. replace (gp_b * pole_x / D * D) with (gp_b * pole_x) by (field; lra). unfold gp_a, gp_b in *. lra. }
  assert (SB : 0 <= s) by (rewrite S; apply Rmult_le_pos; [unfold gp_a; lra|apply Rlt_le, Rinv_0_lt_compat; lra]).
  assert (SC : s * s = 1 - c * c) by (pose proof (sin2_cos2 (th_of pole_point)) as T; unfold Rsqr in T; fold s c in T; lra).
  assert (CC : 0 <= c * c <= 4 / 100000000000000000000) by nra.
  assert (S1 : 1 - 1 / 1000000000000000000 <= s <= 1) by nra.
  assert (S3 : 1 - 3 / 1000000000000000000 <= s * s * s <= 1) by (rewrite SC; nra).
  assert (C3 : 0 <= c * c * c <= 8 / 1000000000000000000000000000000) by nra.
  pose proof e2_bounds as EB. set (X0 := latX_of pole_point). set (Y0 := latY_of pole_point).
  assert (XB : pole_x - 1 / 1000000000000000000000000 <= X0 <= pole_x).
  { unfold X0, latX_of. rewrite RX. fold c. unfold gp_a. nra. }
  assert (YB : 6442841.3118 <= Y0 <= 6442841.31181).
  { unfold Y0, latY_of. cbn [vz pole_point]. fold s. assert (E : 42841.311804 <= ep2 * gp_b <= 42841.311806) by (unfold ep2, gp_a, gp_b; lra). nra. }
  destruct (atan2_polar Y0 X0 ltac:(left; lra)) as (K & _). unfold lat_of. fold X0 Y0.
  set (L := atan2 Y0 X0) in *. set (G := sqrt _) in K.
  assert (GG : G * G = X0 * X0 + Y0 * Y0) by (apply sqrt_sqrt; nra). assert (G0 : 0 <= G) by apply sqrt_pos.
  assert (GB : 6442841.3118 <= G <= 6442841.31182) by nra.
  assert (KB : 0 < cos L <= 2 / 10000000000).
  { rewrite K. split; [apply Rmult_lt_0_compat; [lra|apply Rinv_0_lt_compat; lra]|].
    apply Rmult_le_reg_r with G; [lra|]. replace (X0 / G * G) with X0 by (field; lra). lra. }
  split; [lra|]. pose proof (Nr_pole L ltac:(lra)) as NP.
  assert (PG : pole_x / cos L = pole_x / X0 * G) by (rewrite K; field; lra).
  assert (PX : 1 <= pole_x / X0 <= 1 + 1 / 100000000000000000000).
  { split; (apply Rmult_le_reg_r with X0; [lra|]); replace (pole_x / X0 * X0) with pole_x by (field; lra); lra. }
  rewrite PG. nra.
Qed.

Lemma pole_p : 0 <= rnd64 (pow2_64 pole_x + pow2_64 0) /\
  pole_x * (1 - 1 / 100000000000000) <= rnd64 (sqrt (rnd64 (pow2_64 pole_x + pow2_64 0))) <= pole_x * (1 + 1 / 100000000000000).
Proof.
  assert (X : 1 / 1000 < pole_x < 10001 / 10000000) by (unfold pole_x; lra).
  assert (Z : pow2_64 0 = 0) by (unfold pow2_64; rewrite Rmult_0_l; unfold rnd64; apply round_0; apply valid_rnd_N). rewrite Z, Rplus_0_r.
  assert (XX : 1 / 1000000 <= pole_x * pole_x) by nra. set (w := pole_x * pole_x) in *.
  pose proof (near64 w w w ltac:(lra) ltac:(lra)) as H1. fold (pow2_64 pole_x) in H1. fold w in H1.
  assert (H2 : w * (1 - 21 / 10000000000000000) <= pow2_64 pole_x <= w * (1 + 21 / 10000000000000000)) by (unfold pow2_64; fold w; lra). clear H1.
  pose proof (near64 (pow2_64 pole_x) (w * (1 - 21 / 10000000000000000)) (w * (1 + 21 / 10000000000000000)) ltac:(lra) H2) as H3. set (v := rnd64 (pow2_64 pole_x)) in *. split; [lra|].
  assert (H4 : w * (1 - 5 / 1000000000000000) <= v <= w * (1 + 5 / 1000000000000000)) by lra.
  pose proof (sqrt_pos v) as S0. assert (SS : sqrt v * sqrt v = v) by (apply sqrt_sqrt; lra).
  assert (H5 : pole_x * (1 - 5 / 1000000000000000) <= sqrt v <= pole_x * (1 + 5 / 1000000000000000)).
  { split; apply Rnot_lt_le; intros L.
    - assert (sqrt v * sqrt v < pole_x * (1 - 5 / 1000000000000000) * (pole_x * (1 - 5 / 1000000000000000))) by (apply Rmult_le_0_lt_compat; lra).
      replace (pole_x * (1 - 5 / 1000000000000000) * (pole_x * (1 - 5 / 1000000000000000))) with (w * ((1 - 5 / 1000000000000000) * (1 - 5 / 1000000000000000))) in H by (unfold w; ring). lra.
    - assert (pole_x * (1 + 5 / 1000000000000000) * (pole_x * (1 + 5 / 1000000000000000)) < sqrt v * sqrt v) by (apply Rmult_le_0_lt_compat; lra).
      replace (pole_x * (1 + 5 / 1000000000000000) * (pole_x * (1 + 5 / 1000000000000000))) with (w * ((1 + 5 / 1000000000000000) * (1 + 5 / 1000000000000000))) in H by (unfold w; ring). lra. }
  pose proof (near64 (sqrt v) (pole_x * (1 - 5 / 1000000000000000)) (pole_x * (1 + 5 / 1000000000000000)) ltac:(lra) H5). lra.
Qed.

Lemma bind_ret {A B : Type} (m : outcome A) (k : A -> outcome B) v : bind m k = Ret v -> exists x, m = Ret x /\ k x = Ret v.
Proof. destruct m; cbn; try discriminate. eauto. Qed.
Lemma metres_off at2 : atan2_ok binary64_ops at2 -> (forall y x, generic_format radix2 (FLT_exp (-1074) 53) (at2 y x)) ->
  forall lat' lon' alt', ecef2Lla_f binary64_ops pow2_64 pow3_64 at2 pole_point = Ret (true, (lat', lon', alt')) ->
  exists lat lon alt, ecef2Lla pole_point = Ret (true, (lat, lon, alt)) /\ 3 < Rabs (alt' - alt).
Proof.
  intros HA HG lat' lon' alt' E. destruct pole_alt as (C0 & AL). do 3 eexists. split; [now apply ecef2Lla_ok|].
  apply Rnot_le_lt. intros H. apply Rabs_le_inv in H. unfold ecef2Lla_f in E. cbv zeta in E. cbn [frnd fsin fcos binary64_ops] in E.
  apply bind_ret in E. destruct E as (e0 & E0 & E). apply bind_ret in E. destruct E as (q0 & _ & E). apply bind_ret in E. destruct E as (ep0 & _ & E).
  apply bind_ret in E. destruct E as (p0 & P0 & E). apply bind_ret in E. destruct E as (s0 & S0 & E). apply bind_ret in E. destruct E as (n0 & N0 & E).
  apply bind_ret in E. destruct E as (q & Q & E). apply bind_ret in E. destruct E as (lon1 & _ & E). injection E as EL _ EA.
  match type of Q with Rdivc _ (rnd64 (cos ?t)) = _ => assert (ET : t = lat') by exact EL; rewrite ET in S0, Q end. cbn [vx vy vz pole_point] in P0.
  destruct pole_p as (PP & PB).
  assert (EP : p0 = sqrt (rnd64 (pow2_64 pole_x + pow2_64 0))).
  { unfold sqrtc in P0. destruct (Rlt_dec _ 0); [discriminate|]. now injection P0. }
  unfold Rdivc in Q. destruct (Req_EM_T (rnd64 (cos lat')) 0) as [Z|Z]; [discriminate|]. injection Q as Q. subst q p0.
  assert (F1 : generic_format radix2 (FLT_exp (-1074) 53) lat') by (rewrite <- EL; apply HG).
  assert (F2 : Rabs lat' <= 3.15).
  { rewrite <- EL. eapply Rle_trans; [apply HA|]. cbn [frnd binary64_ops]. pose proof PI_bounds. pose proof (near64 PI PI PI ltac:(lra) ltac:(lra)). lra. }
  apply (no_latitude lat' F1 F2). apply (alt_needs lat' (rnd64 n0) (rnd64 (sqrt (rnd64 (pow2_64 pole_x + pow2_64 0))))); [| exact PB | exact Z | rewrite EA; lra].
  pose proof (N_err binary64_ops binary64_ok pow2_64 pow2_64_ok lat') as NE. cbv zeta in NE. cbn [frnd fsin binary64_ops] in NE.
  assert (EE : e0 = sqrt (rnd64 (1 - pow2_64 (rnd64 (1 - gp_f_f binary64_ops))))).
  { unfold sqrtc in E0. destruct (Rlt_dec _ 0); [discriminate|]. now injection E0. }
  unfold sqrtc in S0. destruct (Rlt_dec _ 0); [discriminate|]. injection S0 as S0. unfold Rdivc in N0. destruct (Req_EM_T _ 0); [discriminate|]. injection N0 as N0.
  subst n0 s0 e0. eapply Rle_trans; [exact NE|]. rewrite u64_val. lra.
Qed.

(** The computation does return: no double of the range has cosine zero. *)
Lemma cos_double_lo l : generic_format radix2 (FLT_exp (-1074) 53) l -> Rabs l <= PI -> 1 / 100000000000000000 <= Rabs (cos l).
Proof.
  intros G B. pose proof PI_bounds as P.
  assert (CA : cos l = cos (Rabs l)) by (unfold Rabs; destruct (Rcase_abs l); [now rewrite cos_neg|reflexivity]).
  rewrite CA. assert (A0 := Rabs_pos l). destruct (Rlt_dec (Rabs l) 1) as [L|L].
    - assert (cos (PI / 3) < cos (Rabs l)) by (apply cos_decreasing_1; lra). rewrite cos_PI3 in *. rewrite Rabs_right; lra.
    - assert (R : rnd64 (Rabs l) = Rabs l) by (apply round_generic; [apply valid_rnd_N|now apply generic_format_abs]).
      destruct (grid64 (-52) (Rabs l)) as (m & M); [lia|change (bpow radix2 (52 + -52)) with 1; rewrite R, Rabs_right; lra|].
      rewrite R in M. change (bpow radix2 (-52)) with (/ 4503599627370496) in M.
      destruct (Z_le_gt_dec m 7074237752028440) as [X|X].
      + apply IZR_le in X. assert (K : sin (5 / 100000000000000000) <= sin (PI / 2 - Rabs l)) by (apply sin_incr_1; lra).
        rewrite sin_shift in K. pose proof (sin_low (5 / 100000000000000000)) as S. rewrite Rabs_right; lra.
      + assert (X' : (7074237752028441 <= m)%Z) by lia. apply IZR_le in X'.
        assert (K : sin (5 / 100000000000000000) <= sin (Rabs l - PI / 2)) by (apply sin_incr_1; lra).
        replace (sin (Rabs l - PI / 2)) with (- cos (Rabs l)) in K by (rewrite sin_minus, cos_PI2, sin_PI2; ring).
        pose proof (sin_low (5 / 100000000000000000)) as S. rewrite Rabs_left; lra.
Qed.
Lemma cos_double l : generic_format radix2 (FLT_exp (-1074) 53) l -> Rabs l <= PI -> rnd64 (cos l) <> 0.
Proof.
  intros G B E. pose proof (cos_double_lo l G B) as H.
  pose proof (rnd64_model (cos l)) as R. rewrite E in R. replace (0 - cos l) with (- cos l) in R by ring. rewrite Rabs_Ropp in R.
  pose proof u64_bounds. pose proof eta_e20 as E2. unfold e20 in E2. nra.
Qed.
Lemma pole_returns at2 : atan2_ok binary64_ops at2 -> (forall y x, generic_format radix2 (FLT_exp (-1074) 53) (at2 y x)) ->
  exists lat' lon' alt', ecef2Lla_f binary64_ops pow2_64 pow3_64 at2 pole_point = Ret (true, (lat', lon', alt')).
Proof.
  intros HA HG. pose proof PI_bounds as P.
  assert (PI1 : rnd64 PI <= PI * (1 + 2 / 1000000000000000) /\ PI * (1 - 2 / 1000000000000000) <= rnd64 PI) by (pose proof (near64 PI PI PI ltac:(lra) ltac:(lra)); lra).
  assert (PI2 : rnd64 (2 * rnd64 PI) <> 0) by (pose proof (near64 (2 * rnd64 PI) 6 7 ltac:(lra) ltac:(lra)); lra).
  assert (AB : forall y x, Rabs (at2 y x) <= PI).
  { intros y x. eapply Rle_trans; [apply HA|]. cbn [frnd binary64_ops]. rewrite rnd_pi. pose proof ProofGuardFloat.pi64_lt_PI. lra. }
  unfold ecef2Lla_f. cbv zeta.
  unfold sqrtc at 1. destruct (Rlt_dec _ 0) as [B|_]; [exfalso; exact (Rlt_not_le _ _ B (q1_pos binary64_ops binary64_ok pow2_64 pow2_64_ok))|]. cbn [bind].
  rewrite Rdivc_ok by exact (proj1 (qh_ap binary64_ops binary64_ok pow2_64 pow2_64_ok)). cbn [bind].
  unfold sqrtc at 1. destruct (Rlt_dec _ 0) as [B|_]; [exfalso; exact (Rlt_not_le _ _ B (proj1 (ep_ap binary64_ops binary64_ok pow2_64 pow2_64_ok)))|]. cbn [bind].
  unfold sqrtc at 1. destruct (Rlt_dec _ 0) as [B|_]; [exfalso; exact (Rlt_not_le _ _ B (proj1 pole_p))|]. cbn [bind].
  unfold sqrtc at 1. destruct (Rlt_dec _ 0) as [B|_]; [exfalso; exact (Rlt_not_le _ _ B (w_pos binary64_ops binary64_ok pow2_64 pow2_64_ok _))|]. cbn [bind].
  rewrite Rdivc_ok by (apply Rgt_not_eq; refine (Rlt_le_trans _ _ _ _ (proj1 (s_range binary64_ops binary64_ok pow2_64 pow2_64_ok _))); lra). cbn [bind].
  rewrite Rdivc_ok by (apply cos_double; [apply HG|apply AB]). cbn [bind].
  unfold fmodc. destruct (Req_EM_T _ 0) as [Z|_]; [exfalso; exact (PI2 Z)|]. cbn [bind]. eauto.
Qed.
Lemma metres_off_all at2 : atan2_ok binary64_ops at2 -> (forall y x, generic_format radix2 (FLT_exp (-1074) 53) (at2 y x)) ->
  exists lat lon alt lat' lon' alt', ecef2Lla pole_point = Ret (true, (lat, lon, alt)) /\
    ecef2Lla_f binary64_ops pow2_64 pow3_64 at2 pole_point = Ret (true, (lat', lon', alt')) /\ 3 < Rabs (alt' - alt).
Proof.
  intros HA HG. destruct (pole_returns at2 HA HG) as (lat' & lon' & alt' & E). destruct (metres_off at2 HA HG _ _ _ E) as (lat & lon & alt & H1 & H2).
  exists lat, lon, alt, lat', lon', alt'. auto.
Qed.
Lemma lla_binary64 : pow3_ok pow3_64 /\ atan2_ok binary64_ops atan2_64 /\ frnd binary64_ops PI = rval M_PI64 /\
  (forall y x, generic_format radix2 (FLT_exp (-1074) 53) (atan2_64 y x)) /\
  generic_format radix2 (FLT_exp (-1074) 53) (4611728665434404 / 4611686018427387904).
Proof.
  split; [exact pow3_64_ok|]. split; [exact atan2_64_ok|]. split; [exact rnd_pi|]. split.
  - intros y x. unfold atan2_64, rnd64. apply generic_format_round; [apply FLT_exp_valid; reflexivity|apply valid_rnd_N].
  - replace (4611728665434404 / 4611686018427387904) with (IZR 4611728665434404 * bpow radix2 (-62)).
    + apply format64; lia.
    + change (bpow radix2 (-62)) with (/ 4611686018427387904). field.
Qed.

(** Every double value of moderate size is the value of a finite binary64. *)
Lemma has_double x : generic_format radix2 (FLT_exp (-1074) 53) x -> Rabs x < 1000 -> exists b, finite64 b /\ rval b = x.
Proof.
  intros G B. set (f := Float radix2 (Ztrunc (scaled_mantissa radix2 (FLT_exp (-1074) 53) x)) (cexp radix2 (FLT_exp (-1074) 53) x)).
  assert (E : F2R f = x) by (symmetry; exact G).
  pose proof (binary_normalize_correct 53 1024 eq_refl eq_refl BinarySingleNaN.mode_NE (Fnum f) (Fexp f) false) as H.
  replace (Float radix2 (Fnum f) (Fexp f)) with f in H by (destruct f; reflexivity). cbv zeta in H. rewrite E in H.
  rewrite round_generic in H; [|apply valid_rnd_round_mode|exact G].
  rewrite Rlt_bool_true in H; [|apply Rlt_le_trans with (bpow radix2 10); [cbn; lra|apply bpow_le; lia]].
  exists (binary_normalize 53 1024 eq_refl eq_refl BinarySingleNaN.mode_NE (Fnum f) (Fexp f) false). split; apply H.
Qed.
Lemma lla_case : exists lat64 lon64 alt' p', finite64 lat64 /\ finite64 lon64 /\
  ecef2Lla_f binary64_ops pow2_64 pow3_64 atan2_64 (V3 (-3840000) 1 5120000) = Ret (true, (rval lat64, rval lon64, alt')) /\
  lla2Ecef_f binary64_ops pow2_64 lat64 lon64 alt' v3zero = Ret (true, p') /\ norm (vsub p' (V3 (-3840000) 1 5120000)) <= 21 / 10000.
Proof.
  set (rE := V3 (-3840000) 1 5120000). destruct lla_binary64 as (H1 & H2 & H3 & H4 & _).
  assert (NE : norm rE * norm rE = 40960000000001) by (rewrite norm_sq; unfold dot, rE; cbn [vx vy vz]; lra).
  assert (N0 : 0 <= norm rE) by apply sqrt_pos. assert (NB : 6399999 <= norm rE <= 6400001) by nra.
  assert (PB : 3839999 <= sqrt (vx rE * vx rE + vy rE * vy rE)).
  { rewrite <- (sqrt_square 3839999) by lra. apply sqrt_le_1_alt. unfold rE. cbn [vx vy]. lra. }
  pose proof (lla_f_eq binary64_ops binary64_ok pow2_64 pow3_64 pow2_64_ok H1 atan2_64 H2 rE ltac:(lra) ltac:(unfold rho; lra)) as E. cbv zeta in E.
  match type of E with _ = Ret (true, (?a, ?b, ?c)) => set (lat := a) in E; set (lon := b) in E; set (alt := c) in E end.
  assert (AB : forall y x, Rabs (atan2_64 y x) < 1000).
  { intros y x. eapply Rle_lt_trans; [apply H2|]. rewrite H3, ProofGuardFloat.pi64_val. lra. }
  destruct (has_double lat) as (b1 & F1 & V1); [apply H4|apply AB|]. destruct (has_double lon) as (b2 & F2 & V2); [apply H4|apply AB|].
  assert (E' : ecef2Lla_f binary64_ops pow2_64 pow3_64 atan2_64 rE = Ret (true, (rval b1, rval b2, alt))) by (rewrite V1, V2; exact E).
  clearbody alt. clear E V1 V2 lat lon.
  destruct (lla_round_trip binary64_ops pow2_64 pow3_64 atan2_64 rE v3zero b1 b2 alt binary64_ok pow2_64_ok H1 H2 H3 ltac:(lra) ltac:(lra) F1 F2 E') as (p' & P1 & P2).
  exists b1, b2, alt, p'. auto.
Qed.
