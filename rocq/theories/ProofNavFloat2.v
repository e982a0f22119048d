(** One call of strapdownRk4 and of integrate in rounded arithmetic. *)
From Coq Require Import Reals ZArith List Lra Lia Psatz.
From Flocq Require Import Core.
From Verif Require Import Base BaseVec SpecRot SpecEarth ModelAttitude ModelGravity ModelNavUtils ModelStrapdown ModelDate ModelStrapdownFloat ModelFramesFloat
  ModelGravityFloat ModelNavFloat SpecFloatOps ProofVec ProofNavUtils ProofPi ProofFrames ProofStrapdown ProofStrapdown2
  ProofStrapdownFloat ProofStrapdownFloat2 ProofFramesFloat ProofGravityFloat ProofNavFloat.
Import ListNotations.
Open Scope R_scope.

Lemma abs_div_le x d c : Rabs x <= c * Rabs d -> d <> 0 -> Rabs (x / d) <= c.
Proof.
  intros H D. unfold Rdiv. rewrite Rabs_mult, Rabs_Rinv by auto. pose proof (Rabs_pos_lt d D). apply Rmult_le_reg_r with (Rabs d); auto.
  rewrite Rmult_assoc, Rinv_l by lra. lra.
Qed.
Lemma within x y k M b : ap x y k M -> k * u64 <= b -> Rabs (x - y) <= b.
Proof. intros (H & _) B. lra. Qed.

Lemma rk4_fn F pow2 pow15 lat lon h vN vE vD dt dVN gN yk : float_ok F -> pow2_ok pow2 ->
  (forall x, 1 / 2 <= x <= 2 -> Rabs (pow15 x - Rpower x (3 / 2)) <= 4 * u64) ->
  Rabs lat <= 148 / 100 -> Rabs lon <= 7 -> Rabs h <= 100000 -> Rabs vN <= 1000 -> Rabs vE <= 1000 -> Rabs vD <= 1000 ->
  0 < Rabs dt <= 1 -> Rabs (vx dVN) <= 100 * Rabs dt -> Rabs (vy dVN) <= 100 * Rabs dt -> Rabs (vz dVN) <= 100 * Rabs dt ->
  Rabs (vx gN) <= 11 -> Rabs (vy gN) <= 11 -> Rabs (vz gN) <= 11 -> length yk = 6%nat ->
  exists a b c d e f a' b' c' d' e' f',
    strapdownRk4 [lat; lon; h; vN; vE; vD] dt dVN gN yk = Ret (true, [a; b; c; d; e; f]) /\
    strapdownRk4_f F pow2 pow15 [lat; lon; h; vN; vE; vD] dt dVN gN yk = Ret (true, [a'; b'; c'; d'; e'; f']) /\
    Rabs (a' - a) <= 1 / 1000000000000000 /\ Rabs (b' - b) <= 4 / 1000000000000000 /\ Rabs (c' - c) <= 6 / 100000000000 /\
    Rabs (d' - d) <= 3 / 1000000000000 /\ Rabs (e' - e) <= 3 / 1000000000000 /\ Rabs (f' - f) <= 3 / 1000000000000.
Proof.
  intros HF HP H15 L1 L2 L3 L4 L5 L6 T X Y Z G1 G2 G3 L. pose proof u64_val as UV.
  assert (D0 : dt <> 0) by (intros ->; rewrite Rabs_R0 in T; lra).
  assert (A : forall x, Rabs x <= 100 * Rabs dt -> ap (frnd F (x / dt)) (x / dt) 101 100).
  { intros x Hx. pose proof (ap_exact _ _ (abs_div_le _ _ _ Hx D0)) as B. eapply ap_le; [apply (ap_rnd F HF); exact B| |]; num. }
  assert (G : forall x, Rabs x <= 11 -> ap x x 3000 11) by (intros; eapply ap_le; [apply ap_exact; eassumption|lra|lra]).
  destruct (rk4_ap F HF pow2 HP pow15 H15 101 ltac:(lra) dVN gN dVN gN dt dt D0 D0) with (lat := lat) (lon := lon) (h := h) (vN := vN) (vE := vE) (vD := vD)
    as (z & z' & E & E' & B1 & B2 & B3 & B4 & B5 & B6); auto.
  - eapply ap_le; [apply ap_exact; apply T|lra|lra].
  - unfold strapdownRk4, strapdownRk4_f. rewrite L. cbn [Nat.eqb]. rewrite E, E'. cbn [bind].
    do 12 eexists. split; [reflexivity|]. split; [reflexivity|].
    split; [eapply within; [exact B1|rewrite UV; lra]|]. split; [eapply within; [exact B2|rewrite UV; lra]|]. split; [eapply within; [exact B3|rewrite UV; lra]|].
    split; [eapply within; [exact B4|rewrite UV; lra]|]. split; [eapply within; [exact B5|rewrite UV; lra]|eapply within; [exact B6|rewrite UV; lra]].
Qed.

(** ** The ingredients of integrate *)
Lemma att1 F A d : float_ok F -> is_rotation A -> bpow radix2 (-480) <= norm d <= 4 ->
  exists A' B, updateAttitude_f F A d = Ret (true, A') /\ updateAttitude A d = Ret (true, B) /\ is_rotation B /\ close_to (2100 * u64) A' (mvmul B).
Proof.
  intros HF HA Hd. assert (N0 : d <> v3zero).
  { intros ->. rewrite norm_zero in Hd. pose proof (bpow_gt_0 radix2 (-480)). lra. }
  destruct (chain_rotation F A A 0 [d] HF HA) as (A' & E & C).
  - intros v. replace (vsub (mvmul A v) (mvmul A v)) with v3zero by vec_ring. rewrite norm_zero. lra.
  - lra.
  - intros x [<-|[]]; exact Hd.
  - cbn [length INR]. rewrite u64_val. lra.
  - cbn [attitude_f] in E. destruct (update_f_total F A d) as [Q|(A2 & Q)]; rewrite Q in E; cbn [bind snd] in E; [discriminate|]. injection E as ->.
    exists A'. eexists. split; [exact Q|]. split; [apply (updateAttitude_ok A d N0)|]. split.
    + apply rotation_mmul; auto. apply axis_matrix_rotation. apply unit_axis; auto.
    + intros v. specialize (C v). cbn [length INR fold_right] in C. rewrite mvmul_mmul, axis_matrix_rotate. replace (2100 * u64) with (0 + 2100 * u64 * 1) by ring. exact C.
Qed.
Lemma le_abs x b : - b <= x <= b -> Rabs x <= b. Proof. intros; apply Rabs_le; lra. Qed.
Lemma grav_bound lat h g : Rabs h <= 100000 -> gravityNed lat h = Ret (true, g) ->
  Rabs (vx g) <= 1 /\ vy g = 0 /\ Rabs (vz g) <= 11.
Proof.
  intros Hh E. pose proof (d0_range lat) as D. pose proof (sd0 lat) as S. pose proof (num0_range lat) as N. cbv zeta in D, S, N.
  unfold gravityNed in E. cbv zeta in E. unfold sqrtc in E. destruct (Rlt_dec _ 0) as [X|_] in E; [lra|]. cbn [bind] in E.
  rewrite Rdivc_ok in E by lra. cbn [bind] in E. injection E as <-. cbn [vx vy vz]. split; [|split; [reflexivity|]].
  - pose proof (SIN_bound (2 * lat)) as B. apply Rabs_le_inv in Hh. assert (P : -10000 <= h / 1000 * (sin (2 * lat)) <= 10000) by nra.
    apply le_abs. lra.
  - set (nn := gp_a * gp_gEq * (cos lat * cos lat) + gp_b * gp_gPole * (sin lat * sin lat)) in *. set (sd := sqrt _) in *. clearbody nn sd.
    assert (Q : Rabs (nn / sd) <= 986 / 100).
    { apply abs_div_le; [|lra]. rewrite !Rabs_right by lra. lra. }
    assert (M : 0 <= gp_wE * gp_wE * (gp_a * gp_a) * gp_b / gp_kM <= 1 / 100) by (unfold gp_wE, gp_a, gp_b, gp_kM, gp_f; lra).
    set (m := gp_wE * gp_wE * (gp_a * gp_a) * gp_b / gp_kM) in *. clearbody m.
    assert (W : 96 / 100 <= 1 + gp_f + m - 2 * gp_f * (sin lat * sin lat) <= 104 / 100).
    { pose proof (sin_sq lat) as T. set (t := sin lat * sin lat) in *. clearbody t. unfold gp_f. lra. }
    set (w := 1 + gp_f + m - _) in *. clearbody w. apply Rabs_le_inv in Hh.
    assert (V : -104000 <= w * h <= 104000) by nra.
    assert (H2 : 0 <= h * h <= 10000000000) by nra.
    rewrite Rabs_mult. apply Rle_trans with (986 / 100 * (11 / 10)); [|lra]. apply Rmult_le_compat; try apply Rabs_pos; auto.
    replace (2 / gp_a * w * h) with (2 / gp_a * (w * h)) by ring. set (p := w * h) in *. set (q := h * h) in *. clearbody p q. unfold gp_a. apply le_abs. lra.
Qed.
Lemma ap_of x y k M e : Rabs (x - y) <= e -> Rabs y <= M -> e <= k * u64 -> ap x y k M.
Proof. intros. split; lra. Qed.

(** The time step, rounded twice. *)
Lemma dt_bound F d : float_ok F -> (1 <= d <= 1000000)%Z -> let dt := IZR d / 1000000 in let dt' := frnd F (frnd F (IZR d) / 1000000) in
  1 / 1000000 <= dt <= 1 /\ Rabs (dt' - dt) <= 3 * u64 * dt.
Proof.
  intros HF (D1 & D2) dt dt'. apply IZR_le in D1, D2. unfold dt, dt'. pose proof (rnd_le F HF (IZR d)) as A.
  pose proof (rnd_le F HF (frnd F (IZR d) / 1000000)) as B. pose proof eta_e20 as E. pose proof u64_bounds as (U0 & U1). unfold e20 in E.
  set (x := IZR d) in *. set (y := frnd F x) in *. set (z := frnd F (y / 1000000)) in *. clearbody x y z.
  rewrite (Rabs_right x) in A by lra. split; [lra|].
  assert (A' : Rabs (y - x) <= (1 + 1 / 10000) * u64 * x) by nra. apply Rabs_le_inv in A'.
  assert (Y : 0 <= y <= 2 * x) by nra. rewrite (Rabs_right (y / 1000000)) in B by lra. apply Rabs_le_inv in B. apply Rabs_le. split; nra.
Qed.
Lemma prod_small a v b n : small b a -> small n v -> 0 <= b -> Rabs (vx a * vx v) + Rabs (vy a * vy v) + Rabs (vz a * vz v) <= 3 * (b * n).
Proof.
  intros (A1 & A2 & A3) (V1 & V2 & V3) B. rewrite !Rabs_mult.
  pose proof (Rmult_le_compat _ _ _ _ (Rabs_pos (vx a)) (Rabs_pos (vx v)) A1 V1). pose proof (Rmult_le_compat _ _ _ _ (Rabs_pos (vy a)) (Rabs_pos (vy v)) A2 V2).
  pose proof (Rmult_le_compat _ _ _ _ (Rabs_pos (vz a)) (Rabs_pos (vz v)) A3 V3). lra.
Qed.
Lemma dv_bound F A' B dV : float_ok F -> is_rotation B -> close_to (2100 * u64) A' (mvmul B) ->
  let dVN' := V3 (fdot F (row1 A') dV) (fdot F (row2 A') dV) (fdot F (row3 A') dV) in
  small (norm dV) (mvmul B dV) /\
  Rabs (vx dVN' - vx (mvmul B dV)) <= 2113 * u64 * norm dV + 8 * eta64 /\
  Rabs (vy dVN' - vy (mvmul B dV)) <= 2113 * u64 * norm dV + 8 * eta64 /\
  Rabs (vz dVN' - vz (mvmul B dV)) <= 2113 * u64 * norm dV + 8 * eta64.
Proof.
  intros HF HB C. cbv zeta. cbn [vx vy vz]. pose proof u64_bounds as (U0 & U1).
  assert (E : forall v, norm (mvmul A' v) <= (108 / 100) * norm v).
  { intros v. specialize (C v). pose proof (norm_tri (vsub (mvmul A' v) (mvmul B v)) (mvmul B v)) as T.
    replace (vadd (vsub (mvmul A' v) (mvmul B v)) (mvmul B v)) with (mvmul A' v) in T by (destruct (mvmul A' v), (mvmul B v); unfold vadd, vsub; cbn; f_equal; ring).
    rewrite (norm_rotated B v HB) in T. pose proof (norm_nonneg v). rewrite u64_val in C. nra. }
  apply entries_le in E. destruct E as (E1 & E2 & E3). pose proof (comp_le dV) as SV.
  destruct (comp_le (vsub (mvmul A' dV) (mvmul B dV))) as (C1 & C2 & C3). pose proof (C dV) as Cd.
  pose proof (prod_small _ _ _ _ E1 SV ltac:(lra)) as P1. pose proof (prod_small _ _ _ _ E2 SV ltac:(lra)) as P2. pose proof (prod_small _ _ _ _ E3 SV ltac:(lra)) as P3.
  pose proof (proj1 (proj2 HF) (row1 A') dV) as F1. pose proof (proj1 (proj2 HF) (row2 A') dV) as F2. pose proof (proj1 (proj2 HF) (row3 A') dV) as F3.
  split. { pose proof (comp_le (mvmul B dV)) as S. rewrite (norm_rotated B dV HB) in S. exact S. }
  pose proof (norm_nonneg dV) as N0.
  assert (G : forall p s x y z, p <= 3 * (108 / 100 * norm dV) -> Rabs (x - y) <= 4 * u64 * p + 8 * eta64 -> Rabs (y - z) <= s -> s <= 2100 * u64 * norm dV ->
     Rabs (x - z) <= 2113 * u64 * norm dV + 8 * eta64).
  { intros p s x y z Hp Hx Hy Hs. pose proof (abs_tri _ _ _ _ _ Hx Hy) as T. eapply Rle_trans; [exact T|].
    assert (u64 * p <= u64 * (3 * (108 / 100 * norm dV))) by (apply Rmult_le_compat_l; lra). assert (0 <= u64 * norm dV) by (apply Rmult_le_pos; lra). lra. }
  split; [|split]; [eapply (G _ _ _ _ _ P1 F1 C1 Cd)|eapply (G _ _ _ _ _ P2 F2 C2 Cd)|eapply (G _ _ _ _ _ P3 F3 C3 Cd)].
Qed.
(** The acceleration estimate. *)
Lemma acc_bound F x' x dt' dt n : float_ok F -> 1 / 1000000 <= dt <= 1 -> Rabs (dt' - dt) <= 3 * u64 * dt -> 0 <= n -> n <= 100 * dt ->
  Rabs x <= n -> Rabs (x' - x) <= 2113 * u64 * n + 8 * eta64 -> ap (frnd F (x' / dt')) (x / dt) 250000 100.
Proof.
  intros HF T D N0 N X X'. pose proof u64_bounds as (U0 & U1). pose proof eta_e20 as E. unfold e20 in E.
  assert (K : Rabs (x / dt) <= 100) by (apply abs_div_le; [rewrite (Rabs_right dt); lra|lra]).
  assert (UT : 3 * u64 * dt <= dt / 1000000) by (rewrite u64_val; lra).
  apply Rabs_le_inv in D. assert (T' : 999999 / 1000000 * dt <= dt') by lra.
  assert (Q : ap (x' / dt') (x / dt) 212000 100).
  { split; [|exact K]. replace (x' / dt' - x / dt) with ((x' - x + - (x / dt) * (dt' - dt)) / dt') by (field; lra). apply abs_div_le; [|lra].
    rewrite (Rabs_right dt') by lra. pose proof (Rabs_triang (x' - x) (- (x / dt) * (dt' - dt))) as TR. rewrite (Rabs_mult (- (x / dt))), Rabs_Ropp in TR.
    assert (D' : Rabs (dt' - dt) <= 3 * u64 * dt) by (apply le_abs; lra).
    pose proof (Rmult_le_compat _ _ _ _ (Rabs_pos (x / dt)) (Rabs_pos (dt' - dt)) K D') as M.
    assert (u64 * n <= u64 * (100 * dt)) by (apply Rmult_le_compat_l; lra).
    assert (eta64 <= / 100 * u64 * dt) by nra.
    assert (212000 * u64 * (999999 / 1000000 * dt) <= 212000 * u64 * dt') by (apply Rmult_le_compat_l; lra). nra. }
  eapply ap_le; [apply (ap_rnd F HF); exact Q| |lra]; unfold e15, e20; lra.
Qed.

Lemma integrate_float F pow2 pow15 n A lat lon h vN vE vD dV dTh t : float_ok F -> pow2_ok pow2 ->
  (forall x, 1 / 2 <= x <= 2 -> Rabs (pow15 x - Rpower x (3 / 2)) <= 4 * u64) ->
  RB2N n = Some A -> pv n = Some (V3 lat lon h, V3 vN vE vD) -> is_rotation A ->
  Rabs lat <= 148 / 100 -> Rabs lon <= 7 -> Rabs h <= 100000 -> Rabs vN <= 1000 -> Rabs vE <= 1000 -> Rabs vD <= 1000 ->
  (1 <= t - tov n <= 1000000)%Z -> norm dV <= 100 * (IZR (t - tov n) / 1000000) -> bpow radix2 (-480) <= norm dTh <= 4 ->
  exists B p v A' p' v',
    integrate dV dTh t (Some n) = Ret (true, Some (NavS (Some B) (Some (p, v)) t (IZR (t - tov n) / 1000000))) /\
    integrate_f F pow2 pow15 dV dTh t A (V3 lat lon h) (V3 vN vE vD) (tov n) = Ret (true, (A', (p', v'))) /\
    is_rotation B /\ close_to (3 / 10000000000000) A' (mvmul B) /\
    Rabs (vx p' - vx p) <= 1 / 1000000000000000 /\ Rabs (vy p' - vy p) <= 4 / 1000000000000000 /\ Rabs (vz p' - vz p) <= 1 / 10000000000 /\
    Rabs (vx v' - vx v) <= 3 / 100000000000 /\ Rabs (vy v' - vy v) <= 3 / 100000000000 /\ Rabs (vz v' - vz v) <= 3 / 100000000000.
Proof.
  intros HF HP H15 RA PV HA L1 L2 L3 L4 L5 L6 T NV NT. pose proof u64_val as UV. pose proof u64_bounds as (U0 & _).
  destruct (att1 F A dTh HF HA NT) as (A' & B & EA' & EB & HB & C).
  destruct (dt_bound F (t - tov n)%Z HF T) as (T1 & T2). cbv zeta in T1, T2.
  destruct (dv_bound F A' B dV HF HB C) as (S & V1 & V2 & V3'). cbv zeta in V1, V2, V3'.
  destruct S as (S1 & S2 & S3). pose proof (norm_nonneg dV) as N0.
  destruct (gravity_float F pow2 lat h HF HP) as (g & g' & EG & EG' & G1 & G2 & G3 & G4).
  { pose proof PI_bounds. lra. } { lra. }
  destruct (grav_bound lat h g L3 EG) as (GB1 & _ & GB3).
  set (dt := IZR (t - tov n) / 1000000) in *. set (dt' := frnd F (frnd F (IZR (t - tov n)) / 1000000)) in *.
  set (dVN' := V3 (fdot F (row1 A') dV) (fdot F (row2 A') dV) (fdot F (row3 A') dV)) in *.
  assert (D0 : dt <> 0) by lra. assert (D0' : dt' <> 0). { apply Rabs_le_inv in T2. assert (3 * u64 * dt <= dt / 1000) by (rewrite UV; lra). lra. }
  assert (Adt : ap dt' dt 3 1) by (apply ap_of with (3 * u64 * dt); [exact T2|rewrite Rabs_right; lra|nra]).
  assert (Aa : ap (frnd F (vx dVN' / dt')) (vx (mvmul B dV) / dt) 250000 100 /\ ap (frnd F (vy dVN' / dt')) (vy (mvmul B dV) / dt) 250000 100 /\
               ap (frnd F (vz dVN' / dt')) (vz (mvmul B dV) / dt) 250000 100).
  { split; [|split]; apply (acc_bound F _ _ dt' dt (norm dV)); auto. }
  assert (Ag : ap (vx g') (vx g) 3000 11 /\ ap (vy g') (vy g) 3000 11 /\ ap (vz g') (vz g) 3000 11).
  { split; [|split]; [apply ap_of with (2 / 10000000000000)|rewrite G2, G3; apply ap_of with 0; rewrite ?Rminus_0_r, ?Rabs_R0|apply ap_of with (2 / 10000000000000)]; rewrite ?UV; lra. }
  destruct (rk4_ap F HF pow2 HP pow15 H15 250000 ltac:(lra) (mvmul B dV) g dVN' g' dt dt' D0 D0' Adt Aa Ag lat lon h vN vE vD L1 L2 L3 L4 L5 L6)
    as (z & z' & E & E' & B1 & B2 & B3 & B4 & B5 & B6).
  assert (OV : (orb (Z.ltb (t - tov n) int64_min) (Z.ltb int64_max (t - tov n))) = false).
    { apply Bool.orb_false_iff. split; apply Z.ltb_ge; unfold int64_min, int64_max; lia. }
  exists B, (fst z), (snd z), A', (fst z'), (snd z'). split; [|split; [|split; [exact HB|split; [|split]]]].
  - unfold integrate. cbv zeta. rewrite OV, RA, EB, PV. cbn [bind negb]. cbn [vx vy vz]. rewrite EG. unfold strapdownRk4. cbn [length Nat.eqb].
      fold dt. rewrite E. cbn [bind]. destruct z as [[? ? ?] [? ? ?]]. reflexivity.
  - unfold integrate_f. cbv zeta. rewrite OV, EA'. cbn [bind negb vx vz]. rewrite EG'. cbn [bind negb]. fold dVN' dt'. rewrite E'. cbn [bind]. destruct z'; reflexivity.
  - intros v. eapply Rle_trans; [apply C|]. apply Rmult_le_compat_r; [apply norm_nonneg|rewrite UV; lra].
  - eapply within; [exact B1|rewrite UV; lra].
  - split; [eapply within; [exact B2|rewrite UV; lra]|]. split; [eapply within; [exact B3|rewrite UV; lra]|].
      split; [eapply within; [exact B4|rewrite UV; lra]|]. split; [eapply within; [exact B5|rewrite UV; lra]|eapply within; [exact B6|rewrite UV; lra]].
Qed.

(** ** Exact arithmetic *)
Definition p15 (x : R) : R := Rpower x (3 / 2).
Lemma dyn_exact y dVN gN dt : strapdownDynamics_f exact_ops (fun x => x * x) p15 y dVN gN dt = strapdownDynamics y dVN gN dt.
Proof.
  unfold strapdownDynamics_f, strapdownDynamics, gp_a_f, gp_f_f, gp_wE_f, p15. cbv zeta. cbn [exact_ops frnd fsin fcos]. reflexivity.
Qed.
Lemma s6map_id y : s6map (frnd exact_ops) y = y. Proof. destruct y as [[? ? ?] [? ? ?]]. reflexivity. Qed.
Lemma rk4_step_exact y dt dVN gN : rk4_step_f exact_ops (fun x => x * x) p15 y dt dVN gN = rk4_step y dt dVN gN.
Proof.
  unfold rk4_step_f, rk4_step, s6add_f, s6scale_f. cbv zeta.
  repeat (rewrite dyn_exact, ?s6map_id; match goal with |- bind ?o _ = bind ?o _ => destruct o; cbn [bind]; try reflexivity end).
Qed.
Lemma rk4_exact y dt dVN gN yk : strapdownRk4_f exact_ops (fun x => x * x) p15 y dt dVN gN yk = strapdownRk4 y dt dVN gN yk.
Proof.
  unfold strapdownRk4_f, strapdownRk4. do 7 (destruct y as [|? y]; try reflexivity).
Qed.
Lemma integrate_exact dV dTh t n A lla vNed A' y : RB2N n = Some A -> pv n = Some (lla, vNed) ->
  integrate_f exact_ops (fun x => x * x) p15 dV dTh t A lla vNed (tov n) = Ret (true, (A', y)) <->
  integrate dV dTh t (Some n) = Ret (true, Some (NavS (Some A') (Some y) t (IZR (t - tov n) / 1000000))).
Proof.
  intros HA HP. unfold integrate_f, integrate. cbv zeta. rewrite HA, HP.
  destruct (orb _ _); [split; discriminate|]. rewrite exact_update. destruct (updateAttitude A dTh) as [(ok, B)| | | |]; cbn [bind]; try (split; discriminate).
  destruct ok; cbn [negb]; [|split; intros E; [injection E; discriminate|discriminate]].
  rewrite gravity_exact. destruct (gravityNed (vx lla) (vz lla)) as [(okg, g)| | | |]; cbn [bind]; try (split; discriminate).
  destruct okg; cbn [negb]; [|split; discriminate]. rewrite rk4_step_exact. unfold strapdownRk4. cbn [length Nat.eqb].
  replace (V3 (vx lla) (vy lla) (vz lla), V3 (vx vNed) (vy vNed) (vz vNed)) with (lla, vNed) by (destruct lla, vNed; reflexivity).
  cbn [exact_ops frnd fdot].
  replace (V3 (dot (row1 B) dV) (dot (row2 B) dV) (dot (row3 B) dV)) with (mvmul B dV) by reflexivity.
  destruct (rk4_step _ _ _ _) as [z| | | |]; cbn [bind]; try (split; discriminate).
  destruct z as [[a1 a2 a3] [b1 b2 b3]]. cbn [fst snd vx vy vz]. split; intros E; injection E; intros; subst; reflexivity.
Qed.
Definition pow15_64 (x : R) : R := rnd64 (Rpower x (3 / 2)).
Lemma pow15_64_ok x : 1 / 2 <= x <= 2 -> Rabs (pow15_64 x - Rpower x (3 / 2)) <= 4 * u64.
Proof.
  intros H. pose proof (rnd_le binary64_ops binary64_ok (Rpower x (3 / 2))) as E. cbn [binary64_ops frnd] in E. unfold pow15_64.
  assert (B : 0 <= Rpower x (3 / 2) <= 3).
  { split; [left; apply exp_pos|]. apply Rle_trans with (Rpower 2 (3 / 2)); [apply Rle_Rpower_l; lra|].
    replace (3 / 2) with (1 + / 2) by lra. rewrite Rpower_plus, Rpower_1, Rpower_sqrt by lra.
    pose proof (sqrt_sqrt 2 ltac:(lra)). pose proof (sqrt_pos 2). nra. }
  rewrite (Rabs_right (Rpower x (3 / 2))) in E by lra. pose proof eta_u. pose proof u64_bounds. pose proof eta_pos. nra.
Qed.
Lemma same_time pow2 pow15 dV dTh A lla vNed t z : integrate_f binary64_ops pow2 pow15 dV dTh t A lla vNed t <> Ret (true, z).
Proof.
  unfold integrate_f. cbv zeta. rewrite Z.sub_diag. destruct (orb _ _); [discriminate|]. cbn [binary64_ops frnd].
  unfold rnd64. rewrite round_0 by apply valid_rnd_N. replace (0 / 1000000) with 0 by lra. rewrite round_0 by apply valid_rnd_N.
  destruct (updateAttitude_f _ A dTh) as [(ok, B)| | | |]; cbn [bind]; try discriminate. destruct ok; cbn [negb]; [|discriminate].
  destruct (gravityNed_f _ _ _ _) as [(okg, g)| | | |]; cbn [bind]; try discriminate. destruct okg; cbn [negb]; [|discriminate].
  unfold rk4_step_f, strapdownDynamics_f. cbv zeta. rewrite Rdivc_0. discriminate.
Qed.
