(** Disturbed runs converge; runs in double arithmetic are disturbed runs. *)
From Coq Require Import Reals ZArith List Lra Lia Psatz.
From Coquelicot Require Import Coquelicot.
From Flocq Require Import Core.
From Verif Require Import Base BaseVec SpecRot SpecEarth SpecStrapdown SpecConverge SpecRunFloat SpecFloatOps ModelAttitude ModelGravity ModelNavUtils ModelStrapdown
  ModelStrapdownFloat ModelNavFloat ProofVec ProofAttitude2 ProofGravity ProofNavUtils ProofStrapdown ProofStrapdown2 ProofLip ProofConverge ProofStrapdownFloat ProofTurn ProofRunFloat.
Import ListNotations.
Open Scope R_scope.

Lemma disturbed_converges : forall A H V Fm W T, 0 <= A < PI / 2 -> 0 <= H < 6200000 -> 0 <= V -> 0 <= Fm -> 0 <= W -> 0 <= T ->
  exists K d, 0 < K /\ 0 < d /\ forall C y f w l C0 y0 s1 eta eps rho,
    motion T C y f w -> (forall t, 0 <= t <= T -> Box A H V (y t) /\ n1 (f t) <= Fm /\ n1 (w t) <= W) ->
    0 <= eta -> 0 <= eps -> 0 <= rho -> sampled T eta eps f w 0 l ->
    d9 C0 (C 0) + d6 y0 (y 0) + eta + eps + INR (length l) * rho <= d -> disturbed rho (C0, y0) l s1 ->
      d9 (fst s1) (C (end_time 0 l)) + d6 (snd s1) (y (end_time 0 l)) <= K * (d9 C0 (C 0) + d6 y0 (y 0) + eta + eps + INR (length l) * rho).
Proof.
  intros A H V Fm W T HA HH HV HF HW HT.
  set (delta := Rmin (/ 4) (Rmin ((PI / 2 - A) / 2) (6200000 - H))).
  assert (D0 : 0 < delta) by (unfold delta; apply Rmin_pos; [lra|apply Rmin_pos; lra]).
  assert (D1 : delta <= / 4) by apply Rmin_l.
  assert (D2 : delta <= (PI / 2 - A) / 2) by (unfold delta; eapply Rle_trans; [apply Rmin_r|apply Rmin_l]).
  assert (D3 : delta <= 6200000 - H) by (unfold delta; eapply Rle_trans; [apply Rmin_r|apply Rmin_r]).
  clearbody delta.
  destruct (field_bounds (A + delta) (H + delta) (V + delta)) as (M & L & HM & HL & H6 & Hgr); try lra.
  pose proof (six_c6 _ H6) as HG.
  assert (Hreg : forall y, Box (A + delta) (H + delta) (V + delta) y -> regular y) by (intros z Hz; apply (box_regular (A + delta) (H + delta) (V + delta)); try assumption; lra).
  set (k := kap Fm W M L). set (q := Qm Fm M). assert (Hq : 0 < q) by (unfold q, Qm; lra). pose proof (ka_pos W) as Kp.
  assert (Hk : 0 <= k).
  { unfold k, kap. assert (0 <= kb Fm W M L). { unfold kb. fold q. assert (0 <= L * (M + q)) by nra. assert (0 <= W * (Fm + 1)) by nra. lra. } nra. }
  set (K := exp (k * T)). assert (K0 : 0 < K) by apply exp_pos.
  set (d := Rmin (Rmin 1 (/ (12 * ka W))) (Rmin (delta / (12 * (M + q))) (delta / (2 * K)))).
  assert (P1 : 0 < / (12 * ka W)) by (apply Rinv_0_lt_compat; lra).
  assert (P2 : 0 < delta / (12 * (M + q))) by (apply Rdiv_lt_0_compat; lra).
  assert (P3 : 0 < delta / (2 * K)) by (apply Rdiv_lt_0_compat; lra).
  assert (Hd : 0 < d) by (unfold d; repeat apply Rmin_pos; lra).
  assert (L1 : d <= 1) by (unfold d; eapply Rle_trans; [apply Rmin_l|apply Rmin_l]).
  assert (L2 : d <= / (12 * ka W)) by (unfold d; eapply Rle_trans; [apply Rmin_l|apply Rmin_r]).
  assert (L3 : d <= delta / (12 * (M + q))) by (unfold d; eapply Rle_trans; [apply Rmin_r|apply Rmin_l]).
  assert (L4 : d <= delta / (2 * K)) by (unfold d; eapply Rle_trans; [apply Rmin_r|apply Rmin_r]).
  clearbody d. exists K, d. split; [exact K0|]. split; [exact Hd|]. intros C y f w l C0 y0 s1 eta eps rho Hm Hb He1 He2 Hr Hs HZ HD.
  set (S := eta + eps). set (Z := d9 C0 (C 0) + d6 y0 (y 0) + S + INR (length l) * rho). replace (d9 C0 (C 0) + d6 y0 (y 0) + eta + eps + INR (length l) * rho) with Z in * by (unfold Z, S; ring).
  assert (p9 : forall X Y, 0 <= d9 X Y) by (intros; apply n9_pos). assert (p6 := d6_pos).
  assert (NR : forall l : list step, 0 <= INR (length l) * rho) by (intros; apply Rmult_le_pos; [apply pos_INR|lra]).
  assert (Zp : 0 <= Z) by (unfold Z, S; pose proof (p9 C0 (C 0)); pose proof (p6 y0 (y 0)); pose proof (NR l); lra).
  assert (EtaZ : eta <= d /\ eps <= d) by (unfold Z, S in HZ; pose proof (p9 C0 (C 0)); pose proof (p6 y0 (y 0)); pose proof (NR l); lra).
  assert (KZ : K * Z <= delta / 2).
  { apply Rle_trans with (K * (delta / (2 * K))); [apply Rmult_le_compat_l; lra|]. right. field. lra. }
  assert (Hexp : forall t, t <= T -> exp (k * t) <= K).
  { intros t Ht. unfold K. destruct (Req_dec (k * t) (k * T)) as [->|Ne]; [lra|]. left. apply exp_increasing. pose proof (Rmult_le_compat_l k t T Hk Ht). lra. }
  assert (Main : forall l t s, 0 <= t <= T -> sampled T eta eps f w t l -> disturbed rho s l s1 -> d9 (fst s) (C t) + d6 (snd s) (y t) + S + INR (length l) * rho <= exp (k * t) * Z ->
    d9 (fst s1) (C (end_time t l)) + d6 (snd s1) (y (end_time t l)) <= K * Z).
  { intros l'. induction l' as [|[[dV dTh] h] l' IH]; intros t s Ht Hs' HD' HE.
    - inversion HD'; subst. cbn [end_time length INR] in *. pose proof (Rmult_le_compat_r Z _ _ Zp (Hexp t ltac:(lra))). unfold S in *. lra.
    - inversion HD' as [|s0 a b c l0 s2 s3 Hcall Hrest]; subst. cbn [sampled] in Hs'. destruct Hs' as (Hh & HhT & Hn & Hsm & Hs'). cbn [end_time length] in *. rewrite S_INR in HE.
      pose proof (NR l') as NR'. destruct s as [A0 x0]. cbn [fst snd] in *.
      destruct (call_step A H V Fm W delta M L HF HW ltac:(lra) HM HL Hreg HG Hgr T C y f w Hm Hb t h dV dTh eps A0 x0) as (A1 & x1 & E1 & E2); try assumption; try lra.
      + apply Rle_trans with (12 * ka W * (/ (12 * ka W))); [apply Rmult_le_compat_l; lra|]. right. field. lra.
      + fold q. apply Rle_trans with (6 * (delta / (12 * (M + q))) * (M + q)); [apply Rmult_le_compat_r; lra|]. right. field. lra.
      + pose proof (Rmult_le_compat_r Z _ _ Zp (Hexp t ltac:(lra))). unfold S in *. lra.
      + specialize (Hcall _ E1). cbn [fst snd] in Hcall. apply (IH (t + h) s2); [lra|exact Hs'|exact Hrest|]. fold k in E2.
        pose proof (d9_tri (fst s2) A1 (C (t + h))) as T9. pose proof (d6_tri (snd s2) x1 (y (t + h))) as T6.
        set (E := d9 A0 (C t) + d6 x0 (y t)) in *. assert (0 <= E) by (unfold E; pose proof (p9 A0 (C t)); pose proof (p6 x0 (y t)); lra).
        replace (exp (k * (t + h)) * Z) with (exp (k * h) * (exp (k * t) * Z)) by (rewrite Rmult_plus_distr_l, exp_plus; ring).
        assert (KH : 0 <= k * h) by (apply Rmult_le_pos; lra).
        apply Rle_trans with ((1 + k * h) * (E + S + (INR (length l') + 1) * rho)).
        * unfold S in *. assert (k * h * (E + h + eps) <= k * h * (E + (eta + eps))) by (apply Rmult_le_compat_l; lra).
          assert (0 <= k * h * ((INR (length l') + 1) * rho)) by (apply Rmult_le_pos; lra). lra.
        * apply Rmult_le_compat; [lra|unfold S; lra|apply exp_ge|exact HE]. }
  apply (Main l 0 (C0, y0)); [lra|exact Hs|exact HD|]. rewrite Rmult_0_r, exp_0, Rmult_1_l. cbn [fst snd]. unfold Z. lra.
Qed.

(** ** Runs in double arithmetic *)
Lemma near_rotation A B : close_to (2 * d9 A B) A (mvmul B).
Proof.
  intros v. replace (vsub (mvmul A v) (mvmul B v)) with (mvmul (msub A B) v) by (unfold vsub, mvmul, msub; cbn; apply v3_eq; ring).
  eapply Rle_trans; [apply norm_n1|]. eapply Rle_trans; [apply n1_mv|]. fold (d9 A B). pose proof (n9_pos (msub A B)) as P. fold (d9 A B) in P.
  assert (N : n1 v <= 2 * norm v).
  { pose proof (sum3_sq v) as Q. fold (n1 v) in Q. pose proof (norm_nonneg v). pose proof (n1_pos v). nra. }
  rewrite Rmult_assoc, (Rmult_comm 2), Rmult_assoc, (Rmult_comm (norm v)). apply Rmult_le_compat_l; [exact P|exact N].
Qed.
Definition rho64 : R := 2 / 10000000000.
Lemma apart_dist s s' : rounding_apart s s' -> d9 (fst s') (fst s) + d6 (snd s') (snd s) <= rho64.
Proof.
  intros (H1 & H2 & H3 & H4 & H5 & H6 & H7). destruct s as [A [p v]], s' as [A' [p' v']]. cbn [fst snd] in *.
  assert (E : forall v, norm (mvmul (msub A' A) v) <= 3 / 10000000000000 * norm v).
  { intros u. specialize (H1 u). replace (mvmul (msub A' A) u) with (vsub (mvmul A' u) (mvmul A u)) by (unfold vsub, mvmul, msub; cbn; apply v3_eq; ring). exact H1. }
  apply entries_le in E. destruct E as ((E1 & E2 & E3) & (E4 & E5 & E6) & (E7 & E8 & E9)).
  unfold d9, n9, d6, n1. unfold vsub at 1 2 3 4 5 6. cbn [vx vy vz fst snd]. unfold rho64. lra.
Qed.

Lemma end_range T eta eps f w l : forall t, 0 <= t <= T -> sampled T eta eps f w t l -> 0 <= end_time t l <= T.
Proof.
  induction l as [|[[dV dTh] dt] l IH]; intros t Ht Hs; cbn [end_time]; [exact Ht|]. destruct Hs as (A1 & A2 & _ & _ & A5). apply IH; [lra|exact A5].
Qed.
Section Doubles.
Variables (F : FloatOps) (pow2 pow15 : R -> R).
Hypothesis HF : float_ok F.
Hypothesis HP : pow2_ok pow2.
Hypothesis H15 : forall x, 1 / 2 <= x <= 2 -> Rabs (pow15 x - Rpower x (3 / 2)) <= 4 * u64.

Lemma run_disturbed l : forall A R0 e y t0, is_rotation R0 -> close_to e A (mvmul R0) -> 0 <= e -> inputs_ok t0 l -> e + 2100 * u64 * INR (length l) <= 1 / 100 ->
  stays F pow2 pow15 (A, y) t0 l ->
  exists s1 R1, nav_run_f F pow2 pow15 (A, y) t0 l = Ret (true, s1) /\ disturbed rho64 (A, y) (steps t0 l) s1 /\
    place_ok (snd s1) /\ is_rotation R1 /\ close_to (e + 2100 * u64 * INR (length l)) (fst s1) (mvmul R1).
Proof.
  induction l as [|[[dV dTh] t] l IH]; intros A R0 e y t0 HR HC He HI HN HG; cbn [stays nav_run_f steps inputs_ok fst snd] in *.
  - exists (A, y), R0. split; [reflexivity|]. split; [apply dist_nil|]. split; [apply HG|]. split; [exact HR|]. cbn [length INR fst]. rewrite Rmult_0_r, Rplus_0_r. exact HC.
  - destruct HG as (HB & HG). destruct HI as (I1 & I2 & I3 & I4). cbn [length] in *. rewrite S_INR in *. pose proof u64_bounds as (U0 & _). pose proof (pos_INR (length l)).
    assert (0 <= u64 * INR (length l)) by nra.
    destruct (call_float F pow2 pow15 HF HP H15 A R0 e y dV dTh t t0 0 HR HC ltac:(lra) HB I1 I2 I3) as (B & z & A' & z' & R1 & E1 & E2 & HR1 & C1 & RA).
    destruct (IH A' R1 (e + 2100 * u64) z' t) as (s1 & R2 & J1 & J2 & J3 & J4 & J5); auto; try lra.
    exists s1, R2. rewrite E2. cbn [bind fst snd]. split; [exact J1|]. split; [|split; [exact J3|split; [exact J4|]]].
    + apply dist_cons with (A', z'); [|exact J2]. intros [A1 y1] EC. unfold lapse in EC. rewrite (call_of_integrate A y t0 0) in EC by (unfold fits; lia).
      fold (lapse t0 t) in EC. rewrite E1 in EC. injection EC as <- <-. exact (apart_dist _ _ RA).
    + replace (e + 2100 * u64 * (INR (length l) + 1)) with (e + 2100 * u64 + 2100 * u64 * INR (length l)) by ring. exact J5.
Qed.
End Doubles.

Lemma near_d9 e A R1 R2 : is_rotation R1 -> is_rotation R2 -> close_to e A (mvmul R1) -> 0 <= e <= 1 / 10 -> d9 A R2 <= 20.
Proof.
  intros H1 H2 HC He.
  assert (E : forall v, norm (mvmul A v) <= 11 / 10 * norm v) by (intros v; pose proof (near_le e A R1 H1 HC v); pose proof (norm_nonneg v); nra).
  assert (E' : forall v, norm (mvmul R2 v) <= 1 * norm v) by (intros v; rewrite rotation_norm by exact H2; lra).
  apply entries_le in E. apply entries_le in E'. destruct E as ((E1 & E2 & E3) & (E4 & E5 & E6) & (E7 & E8 & E9)).
  destruct E' as ((G1 & G2 & G3) & (G4 & G5 & G6) & (G7 & G8 & G9)).
  assert (T : forall x z, Rabs (x - z) <= Rabs x + Rabs z) by (intros; unfold Rminus; rewrite <- (Rabs_Ropp z); apply Rabs_triang).
  unfold d9, n9, n1, msub, row1, row2, row3 in *. cbn [vx vy vz m11 m12 m13 m21 m22 m23 m31 m32 m33] in *.
  pose proof (T (m11 A) (m11 R2)). pose proof (T (m12 A) (m12 R2)). pose proof (T (m13 A) (m13 R2)).
  pose proof (T (m21 A) (m21 R2)). pose proof (T (m22 A) (m22 R2)). pose proof (T (m23 A) (m23 R2)).
  pose proof (T (m31 A) (m31 R2)). pose proof (T (m32 A) (m32 R2)). pose proof (T (m33 A) (m33 R2)). lra.
Qed.

Lemma doubles_converge : forall A O H V Fm W T, 0 <= A < PI / 2 -> 0 <= O -> 0 <= H < 6200000 -> 0 <= V -> 0 <= Fm -> 0 <= W -> 0 <= T ->
  exists K, 0 < K /\ forall F pow2 pow15 C y f w l C0 y0 t0 eta eps,
    float_ok F -> pow2_ok pow2 -> (forall x, 1 / 2 <= x <= 2 -> Rabs (pow15 x - Rpower x (3 / 2)) <= 4 * u64) ->
    motion T C y f w -> (forall t, 0 <= t <= T -> Box A H V (y t) /\ Rabs (vy (fst (y t))) <= O /\ n1 (f t) <= Fm /\ n1 (w t) <= W) ->
    0 <= eta -> 0 <= eps -> sampled T eta eps f w 0 (steps t0 l) -> inputs_ok t0 l -> INR (length l) <= 10000000000 ->
    d9 C0 (C 0) <= 1 / 400 -> stays F pow2 pow15 (C0, y0) t0 l ->
    exists s1, nav_run_f F pow2 pow15 (C0, y0) t0 l = Ret (true, s1) /\
      d9 (fst s1) (C (end_time 0 (steps t0 l))) + d6 (snd s1) (y (end_time 0 (steps t0 l))) <= K * (d9 C0 (C 0) + d6 y0 (y 0) + eta + eps + INR (length l) * rho64).
Proof.
  intros A O H V Fm W T HA HO HH HV HFm HW HT.
  destruct (disturbed_converges A H V Fm W T) as (K & d & HK & Hd & Main); try lra.
  set (D := 20 + ((148 / 100 + A) + (7 + O) + (100000 + H) + 3 * (1000 + V))). assert (D0 : 0 < D) by (unfold D; lra).
  set (K' := K + D / d). assert (P : 0 < D / d) by (apply Rdiv_lt_0_compat; lra).
  exists K'. split; [unfold K'; lra|]. intros F pow2 pow15 C y f w l C0 y0 t0 eta eps HF HP H15 Hm Hb He1 He2 Hs Hi Hn H9 Hr.
  pose proof u64_bounds as (U0 & _). pose proof u64_val as UV. pose proof (pos_INR (length l)) as NP.
  assert (R0 : 0 <= rho64) by (unfold rho64; lra). assert (p9 : 0 <= d9 C0 (C 0)) by apply n9_pos. pose proof (d6_pos y0 (y 0)) as p6.
  assert (UN : 0 <= u64 * INR (length l) <= u64 * 10000000000) by nra.
  destruct (run_disturbed F pow2 pow15 HF HP H15 l C0 (C 0) (2 * d9 C0 (C 0)) y0 t0) as (s1 & R1 & E1 & E2 & E3 & E4 & E5); auto; try lra.
  { apply Hm; lra. }
  { apply near_rotation. }
  exists s1. split; [exact E1|].
  assert (SL : forall l t, length (steps t l) = length l) by (intros l'; induction l' as [|[[? ?] ?] l' IH]; intros; cbn [steps length]; auto).
  set (Z := d9 C0 (C 0) + d6 y0 (y 0) + eta + eps + INR (length l) * rho64).
  assert (NZ : 0 <= INR (length l) * rho64) by (apply Rmult_le_pos; lra).
  destruct (Rle_dec Z d) as [HZ|HZ].
  - assert (Z0 : 0 <= Z) by (unfold Z; lra). apply Rle_trans with (K * Z).
    + unfold Z. rewrite <- (SL l t0). apply (Main C y f w (steps t0 l) C0 y0 s1 eta eps rho64); auto; [|rewrite SL; exact HZ].
      intros t Ht. destruct (Hb t Ht) as (? & ? & ? & ?). tauto.
    + apply Rmult_le_compat_r; [exact Z0|]. unfold K'. lra.
  - assert (HZ' : d < Z) by lra. apply Rle_trans with D.
    + pose proof (end_range T eta eps f w (steps t0 l) 0 ltac:(lra) Hs) as ER. set (tau := end_time 0 (steps t0 l)) in *.
      pose proof (near_d9 _ (fst s1) R1 (C tau) E4 (proj1 (Hm tau ER)) E5 ltac:(lra)) as B9.
      destruct (Hb tau ER) as ((X1 & X2 & X3 & X4 & X5) & X6 & _). destruct E3 as (Y1 & Y2 & Y3 & Y4 & Y5 & Y6).
      assert (B : forall x z, Rabs (x - z) <= Rabs x + Rabs z) by (intros; unfold Rminus; rewrite <- (Rabs_Ropp z); apply Rabs_triang).
      unfold d6, n1, vsub. cbn [vx vy vz].
      pose proof (B (vx (fst (snd s1))) (vx (fst (y tau)))). pose proof (B (vy (fst (snd s1))) (vy (fst (y tau)))). pose proof (B (vz (fst (snd s1))) (vz (fst (y tau)))).
      pose proof (B (vx (snd (snd s1))) (vx (snd (y tau)))). pose proof (B (vy (snd (snd s1))) (vy (snd (y tau)))). pose proof (B (vz (snd (snd s1))) (vz (snd (y tau)))).
      unfold D. lra.
    + assert (D / d * d = D) by (field; lra). assert (D / d * d <= D / d * Z) by (apply Rmult_le_compat_l; lra).
      assert (0 <= K * Z) by (apply Rmult_le_pos; lra). unfold K'. lra.
Qed.
