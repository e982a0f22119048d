(** Whole runs of integrate in rounded arithmetic. *)
From Coq Require Import Reals ZArith List Lra Lia Psatz.
From Flocq Require Import Core.
From Verif Require Import Base BaseVec SpecRot SpecEarth SpecConverge SpecRunFloat ModelAttitude ModelGravity ModelNavUtils ModelStrapdown ModelDate ModelStrapdownFloat ModelFramesFloat
  ModelGravityFloat ModelNavFloat SpecFloatOps ProofVec ProofNavUtils ProofPi ProofFrames ProofStrapdown ProofStrapdown2
  ProofStrapdownFloat ProofStrapdownFloat2 ProofFramesFloat ProofGravityFloat ProofNavFloat ProofNavFloat2.
Import ListNotations.
Open Scope R_scope.

(** ** Products with a matrix that is only nearly a rotation *)
Lemma near_le e A R0 : is_rotation R0 -> close_to e A (mvmul R0) -> forall v, norm (mvmul A v) <= (1 + e) * norm v.
Proof.
  intros HR C v. pose proof (norm_tri (vsub (mvmul A v) (mvmul R0 v)) (mvmul R0 v)) as T.
  replace (vadd (vsub (mvmul A v) (mvmul R0 v)) (mvmul R0 v)) with (mvmul A v) in T by (destruct (mvmul A v), (mvmul R0 v); unfold vadd, vsub; cbn; f_equal; ring).
  rewrite (norm_rotated R0 v HR) in T. specialize (C v). lra.
Qed.
Lemma prod_close2 F k A Bc B : float_ok F -> (forall w, norm (mvmul A w) <= 2 * norm w) ->
  (forall v, norm (mvmul B v) = norm v) -> near (k * u64) Bc B -> 0 <= k <= 1000 ->
  close_to ((6 * k + 90) * u64) (mmul_f F A Bc) (mvmul (mmul A B)).
Proof.
  intros HF HA2 HB NB Hk v. pose proof u64_bounds as U.
  assert (KU : k * u64 <= 1 / 1000) by nra.
  destruct (entries_le A 2 HA2) as (A1 & A2 & A3).
  assert (HB1 : forall w, norm (mvmul B w) <= 1 * norm w) by (intros w; rewrite HB; lra).
  destruct (entries_le B 1 HB1) as ((P11 & P12 & P13) & (P21 & P22 & P23) & (P31 & P32 & P33)). cbn in P11, P12, P13, P21, P22, P23, P31, P32, P33.
  assert (BC : small (11 / 10) (col1 Bc) /\ small (11 / 10) (col2 Bc) /\ small (11 / 10) (col3 Bc)).
  { destruct NB as ((N11 & N12 & N13) & (N21 & N22 & N23) & (N31 & N32 & N33)).
    assert (Q : forall a b, Rabs (a - b) <= k * u64 -> Rabs b <= 1 -> Rabs a <= 11 / 10).
    { intros a b Ha Hb. pose proof (abs_near _ _ _ _ Ha Hb). lra. }
    repeat split; cbn [col1 col2 col3 vx vy vz]; eapply Q; eassumption. }
  destruct BC as (C1 & C2 & C3).
  assert (NM : near (30 * u64) (mmul_f F A Bc) (mmul A Bc)).
  { split; [split; [|split]|split; (split; [|split])].
    - exact (fdot_near F HF _ _ A1 C1).
    - exact (fdot_near F HF _ _ A1 C2).
    - exact (fdot_near F HF _ _ A1 C3).
    - exact (fdot_near F HF _ _ A2 C1).
    - exact (fdot_near F HF _ _ A2 C2).
    - exact (fdot_near F HF _ _ A2 C3).
    - exact (fdot_near F HF _ _ A3 C1).
    - exact (fdot_near F HF _ _ A3 C2).
    - exact (fdot_near F HF _ _ A3 C3). }
  pose proof (near_op _ _ _ NM v) as E1. pose proof (near_op _ _ _ NB v) as E2.
  pose proof (HA2 (vsub (mvmul Bc v) (mvmul B v))) as E4.
  set (w1 := vsub (mvmul (mmul_f F A Bc) v) (mvmul (mmul A Bc) v)) in *.
  set (w2 := vsub (mvmul Bc v) (mvmul B v)) in *.
  replace (vsub (mvmul (mmul_f F A Bc) v) (mvmul (mmul A B) v)) with (vadd w1 (mvmul A w2)).
  - pose proof (norm_tri w1 (mvmul A w2)). pose proof (norm_nonneg v). assert (0 <= u64 * norm v) by nra. lra.
  - unfold w1, w2. generalize (mmul_f F A Bc). intros P. clear.
    destruct v as [v1 v2 v3]. unfold vadd, vsub, mvmul, mmul; cbn. apply v3_eq; ring.
Qed.
Lemma att2 F A R0 e d : float_ok F -> is_rotation R0 -> close_to e A (mvmul R0) -> 0 <= e <= 1 / 100 -> bpow radix2 (-480) <= norm d <= 4 ->
  exists A' B R1, updateAttitude_f F A d = Ret (true, A') /\ updateAttitude A d = Ret (true, B) /\ is_rotation R1 /\
    close_to (2100 * u64) A' (mvmul B) /\ close_to e B (mvmul R1) /\ close_to (e + 2100 * u64) A' (mvmul R1).
Proof.
  intros HF HR C He Hd. assert (N0 : d <> v3zero).
  { intros ->. rewrite norm_zero in Hd. pose proof (bpow_gt_0 radix2 (-480)). lra. }
  assert (Hm : mu <= norm d <= 4) by exact Hd.
  pose proof (near_le e A R0 HR C) as NA.
  assert (NA2 : forall w, norm (mvmul A w) <= 2 * norm w) by (intros w; pose proof (NA w); pose proof (norm_nonneg w); nra).
  exists (mmul_f F A (Bh F d)), (mmul A (Be d)), (mmul R0 (Be d)).
  split; [apply (update_f_eq F HF d Hm)|]. split; [rewrite (Be_eq d Hm); apply (updateAttitude_ok A d N0)|].
  assert (C1 : close_to (2100 * u64) (mmul_f F A (Bh F d)) (mvmul (mmul A (Be d)))).
  { intros v. eapply Rle_trans; [apply (prod_close2 F 330 A _ _ HF NA2 (Be_norm d Hm) (Bh_near F HF d Hm) ltac:(lra))|].
    apply Rmult_le_compat_r; [apply norm_nonneg|]. pose proof u64_bounds. lra. }
  assert (C2 : close_to e (mmul A (Be d)) (mvmul (mmul R0 (Be d)))).
  { intros v. rewrite !mvmul_mmul. eapply Rle_trans; [apply C|]. rewrite (Be_norm d Hm). lra. }
  split; [apply rotation_mmul; [exact HR|]; rewrite (Be_eq d Hm); apply axis_matrix_rotation, unit_axis, N0|]. split; [exact C1|]. split; [exact C2|].
  intros v. specialize (C1 v). specialize (C2 v). set (a := mvmul (mmul_f F A (Bh F d)) v) in *. set (b := mvmul (mmul A (Be d)) v) in *. set (c := mvmul (mmul R0 (Be d)) v) in *.
  replace (vsub a c) with (vadd (vsub a b) (vsub b c)) by (destruct a, b, c; unfold vadd, vsub; cbn; apply v3_eq; ring).
  pose proof (norm_tri (vsub a b) (vsub b c)). lra.
Qed.
Lemma dv_bound2 F A' B dV : float_ok F -> (forall v, norm (mvmul B v) <= 102 / 100 * norm v) -> close_to (2100 * u64) A' (mvmul B) ->
  let dVN' := V3 (fdot F (row1 A') dV) (fdot F (row2 A') dV) (fdot F (row3 A') dV) in
  small (102 / 100 * norm dV) (mvmul B dV) /\
  Rabs (vx dVN' - vx (mvmul B dV)) <= 2113 * u64 * norm dV + 8 * eta64 /\
  Rabs (vy dVN' - vy (mvmul B dV)) <= 2113 * u64 * norm dV + 8 * eta64 /\
  Rabs (vz dVN' - vz (mvmul B dV)) <= 2113 * u64 * norm dV + 8 * eta64.
Proof.
  intros HF HB C. cbv zeta. cbn [vx vy vz]. pose proof u64_bounds as (U0 & U1).
  assert (E : forall v, norm (mvmul A' v) <= (108 / 100) * norm v).
  { intros v. specialize (C v). pose proof (norm_tri (vsub (mvmul A' v) (mvmul B v)) (mvmul B v)) as T.
    replace (vadd (vsub (mvmul A' v) (mvmul B v)) (mvmul B v)) with (mvmul A' v) in T by (destruct (mvmul A' v), (mvmul B v); unfold vadd, vsub; cbn; f_equal; ring).
    pose proof (HB v). pose proof (norm_nonneg v). rewrite u64_val in C. nra. }
  apply entries_le in E. destruct E as (E1 & E2 & E3). pose proof (comp_le dV) as SV.
  destruct (comp_le (vsub (mvmul A' dV) (mvmul B dV))) as (C1 & C2 & C3). pose proof (C dV) as Cd.
  pose proof (prod_small _ _ _ _ E1 SV ltac:(lra)) as P1. pose proof (prod_small _ _ _ _ E2 SV ltac:(lra)) as P2. pose proof (prod_small _ _ _ _ E3 SV ltac:(lra)) as P3.
  pose proof (proj1 (proj2 HF) (row1 A') dV) as F1. pose proof (proj1 (proj2 HF) (row2 A') dV) as F2. pose proof (proj1 (proj2 HF) (row3 A') dV) as F3.
  split. { pose proof (comp_le (mvmul B dV)) as (S1 & S2 & S3). pose proof (HB dV). unfold small. lra. }
  pose proof (norm_nonneg dV) as N0.
  assert (G : forall p s x y z, p <= 3 * (108 / 100 * norm dV) -> Rabs (x - y) <= 4 * u64 * p + 8 * eta64 -> Rabs (y - z) <= s -> s <= 2100 * u64 * norm dV ->
     Rabs (x - z) <= 2113 * u64 * norm dV + 8 * eta64).
  { intros p s x y z Hp Hx Hy Hs. pose proof (abs_tri _ _ _ _ _ Hx Hy) as T. eapply Rle_trans; [exact T|].
    assert (u64 * p <= u64 * (3 * (108 / 100 * norm dV))) by (apply Rmult_le_compat_l; lra). assert (0 <= u64 * norm dV) by (apply Rmult_le_pos; lra). lra. }
  split; [|split]; [eapply (G _ _ _ _ _ P1 F1 C1 Cd)|eapply (G _ _ _ _ _ P2 F2 C2 Cd)|eapply (G _ _ _ _ _ P3 F3 C3 Cd)].
Qed.

(** ** One call *)
Section Call.
Variables (F : FloatOps) (pow2 pow15 : R -> R).
Hypothesis HF : float_ok F.
Hypothesis HP : pow2_ok pow2.
Hypothesis H15 : forall x, 1 / 2 <= x <= 2 -> Rabs (pow15 x - Rpower x (3 / 2)) <= 4 * u64.

Lemma call_float A R0 e y dV dTh t t0 d0 : is_rotation R0 -> close_to e A (mvmul R0) -> 0 <= e <= 1 / 100 -> place_ok y ->
  (1 <= t - t0 <= 1000000)%Z -> norm dV <= 98 * lapse t0 t -> bpow radix2 (-480) <= norm dTh <= 4 ->
  exists B z A' z' R1,
    integrate dV dTh t (Some (NavS (Some A) (Some y) t0 d0)) = Ret (true, Some (NavS (Some B) (Some z) t (lapse t0 t))) /\
    integrate_f F pow2 pow15 dV dTh t A (fst y) (snd y) t0 = Ret (true, (A', z')) /\
    is_rotation R1 /\ close_to (e + 2100 * u64) A' (mvmul R1) /\ rounding_apart (B, z) (A', z').
Proof.
  intros HR HC He (L1 & L2 & L3 & L4 & L5 & L6) T NV NT. destruct y as [[lat lon h] [vN vE vD]]. cbn [fst snd vx vy vz] in L1, L2, L3, L4, L5, L6.
  pose proof u64_val as UV. pose proof u64_bounds as (U0 & _).
  destruct (att2 F A R0 e dTh HF HR HC He NT) as (A' & B & R1 & EA' & EB & HR1 & C & C2 & C3).
  assert (NB : forall v, norm (mvmul B v) <= 102 / 100 * norm v).
  { intros v. pose proof (near_le e B R1 HR1 C2 v). pose proof (norm_nonneg v). nra. }
  destruct (dt_bound F (t - t0)%Z HF T) as (T1 & T2). cbv zeta in T1, T2.
  destruct (dv_bound2 F A' B dV HF NB C) as (S & V1 & V2 & V3'). cbv zeta in V1, V2, V3'.
  destruct S as (S1 & S2 & S3). pose proof (norm_nonneg dV) as N0.
  destruct (gravity_float F pow2 lat h HF HP) as (g & g' & EG & EG' & G1 & G2 & G3 & G4).
  { pose proof PI_bounds. lra. } { lra. }
  destruct (grav_bound lat h g L3 EG) as (GB1 & _ & GB3). unfold lapse in *.
  set (dt := IZR (t - t0) / 1000000) in *. set (dt' := frnd F (frnd F (IZR (t - t0)) / 1000000)) in *.
  set (dVN' := V3 (fdot F (row1 A') dV) (fdot F (row2 A') dV) (fdot F (row3 A') dV)) in *.
  assert (D0 : dt <> 0) by lra. assert (D0' : dt' <> 0). { apply Rabs_le_inv in T2. assert (3 * u64 * dt <= dt / 1000) by (rewrite UV; lra). lra. }
  assert (Adt : ap dt' dt 3 1) by (apply ap_of with (3 * u64 * dt); [exact T2|rewrite Rabs_right; lra|nra]).
  assert (W : 0 <= u64 * norm dV) by nra.
  assert (Aa : ap (frnd F (vx dVN' / dt')) (vx (mvmul B dV) / dt) 250000 100 /\ ap (frnd F (vy dVN' / dt')) (vy (mvmul B dV) / dt) 250000 100 /\
               ap (frnd F (vz dVN' / dt')) (vz (mvmul B dV) / dt) 250000 100).
  { split; [|split]; apply (acc_bound F _ _ dt' dt (102 / 100 * norm dV)); auto; lra. }
  assert (Ag : ap (vx g') (vx g) 3000 11 /\ ap (vy g') (vy g) 3000 11 /\ ap (vz g') (vz g) 3000 11).
  { split; [|split]; [apply ap_of with (2 / 10000000000000)|rewrite G2, G3; apply ap_of with 0; rewrite ?Rminus_0_r, ?Rabs_R0|apply ap_of with (2 / 10000000000000)]; rewrite ?UV; lra. }
  destruct (rk4_ap F HF pow2 HP pow15 H15 250000 ltac:(lra) (mvmul B dV) g dVN' g' dt dt' D0 D0' Adt Aa Ag lat lon h vN vE vD L1 L2 L3 L4 L5 L6)
    as (z & z' & E & E' & B1 & B2 & B3 & B4 & B5 & B6).
  assert (OV : (orb (Z.ltb (t - t0) int64_min) (Z.ltb int64_max (t - t0))) = false).
  { apply Bool.orb_false_iff. split; apply Z.ltb_ge; unfold int64_min, int64_max; lia. }
  exists B, z, A', z', R1. split; [|split; [|split; [exact HR1|split; [exact C3|]]]].
  - unfold integrate. cbv zeta. cbn [RB2N pv tov]. rewrite OV, EB. cbn [bind negb]. cbn [vx vy vz]. rewrite EG. unfold strapdownRk4. cbn [length Nat.eqb].
    fold dt. rewrite E. cbn [bind]. destruct z as [[? ? ?] [? ? ?]]. reflexivity.
  - unfold integrate_f. cbv zeta. cbn [fst snd]. rewrite OV, EA'. cbn [bind negb vx vz]. rewrite EG'. cbn [bind negb]. fold dVN' dt'. rewrite E'. reflexivity.
  - unfold rounding_apart. cbn [fst snd]. split; [|split].
    + intros v. eapply Rle_trans; [apply C|]. apply Rmult_le_compat_r; [apply norm_nonneg|rewrite UV; lra].
    + eapply within; [exact B1|rewrite UV; lra].
    + split; [eapply within; [exact B2|rewrite UV; lra]|]. split; [eapply within; [exact B3|rewrite UV; lra]|].
      split; [eapply within; [exact B4|rewrite UV; lra]|]. split; [eapply within; [exact B5|rewrite UV; lra]|eapply within; [exact B6|rewrite UV; lra]].
Qed.

(** ** Whole runs *)
Lemma run_follows l : forall A R0 e y t0, is_rotation R0 -> close_to e A (mvmul R0) -> 0 <= e -> inputs_ok t0 l -> e + 2100 * u64 * INR (length l) <= 1 / 100 ->
  follows F pow2 pow15 (A, y) t0 l.
Proof.
  induction l as [|[[dV dTh] t] l IH]; intros A R0 e y t0 HR HC He HI HN; cbn [follows]; [exact I|]. intros HB. cbn [fst snd] in *.
  destruct HI as (I1 & I2 & I3 & I4). cbn [length] in HN. rewrite S_INR in HN. pose proof u64_bounds as (U0 & _). pose proof (pos_INR (length l)).
  assert (0 <= u64 * INR (length l)) by nra.
  destruct (call_float A R0 e y dV dTh t t0 0 HR HC ltac:(lra) HB I1 I2 I3) as (B & z & A' & z' & R1 & E1 & E2 & HR1 & C1 & RA).
  exists (A', z'), (B, z). cbn [fst snd]. split; [exact E2|]. split; [exact E1|]. split; [exact RA|].
  apply (IH A' R1 (e + 2100 * u64)); auto; lra.
Qed.
End Call.
