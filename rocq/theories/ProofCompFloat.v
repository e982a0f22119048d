(** Rounding errors of the measurement compensation. *)
From Coq Require Import Reals ZArith List String Lra Lia Psatz.
From Flocq Require Import Core.
From Verif Require Import Base BaseVec ModelDate ModelCompensator ModelStrapdownFloat ModelCompFloat SpecFloatOps ProofVec ProofRnd ProofStrapdownFloat ProofStrapdownFloat2.
Import ListNotations.
Open Scope R_scope.

Lemma exact_comp c v ty : compensateMeasurement_f exact_ops c v ty = compensateMeasurement c v ty.
Proof. reflexivity. Qed.

Section Row.
Variable F : FloatOps.
Hypothesis HF : float_ok F.

(** One entry of the product of the diagonal matrix with the misalignments. *)
Lemma entry_err a b x s m : Rabs (vx a * vx b) + Rabs (vy a * vy b) + Rabs (vz a * vz b) = Rabs (s * m) -> dot a b = s * m -> x = fdot F a b ->
  Rabs (x - s * m) <= 4 * u64 * Rabs (s * m) + 8 * eta64.
Proof. intros H D ->. destruct HF as (_ & Hd & _). pose proof (Hd a b) as E. now rewrite H, D in E. Qed.

Lemma row_err A1 A2 A3 a1 a2 a3 d1 d2 d3 :
  (Rabs (A1 - a1) <= 4 * u64 * Rabs a1 + 8 * eta64) -> (Rabs (A2 - a2) <= 4 * u64 * Rabs a2 + 8 * eta64) -> (Rabs (A3 - a3) <= 4 * u64 * Rabs a3 + 8 * eta64) ->
  Rabs (fdot F (V3 A1 A2 A3) (V3 (frnd F d1) (frnd F d2) (frnd F d3)) - (a1 * d1 + a2 * d2 + a3 * d3)) <=
  10 * u64 * (Rabs (a1 * d1) + Rabs (a2 * d2) + Rabs (a3 * d3)) + 10 * eta64 * (1 + (Rabs a1 + Rabs a2 + Rabs a3) + (Rabs d1 + Rabs d2 + Rabs d3)).
Proof.
  intros H1 H2 H3. destruct HF as (Hr & Hd & _). pose proof u64_bounds as (U0 & U1). pose proof eta_pos as E0.
  assert (E1 : eta64 <= 1 / 1000000) by (pose proof eta_u; lra).
  assert (T : forall A a d, Rabs (A - a) <= 4 * u64 * Rabs a + 8 * eta64 ->
    Rabs (A * frnd F d - a * d) <= (5 * u64 + u64 / 1000) * Rabs (a * d) + eta64 * (2 * Rabs a + 9 * Rabs d) + eta64 / 1000 /\
    Rabs (A * frnd F d) <= (1 + u64 * 6) * Rabs (a * d) + eta64 * (2 * Rabs a + 9 * Rabs d) + eta64 / 1000).
  { intros A a d HA. pose proof (Hr d) as D. set (y := frnd F d) in *. clearbody y.
    assert (K : Rabs (A * y - a * d) <= (5 * u64 + u64 / 1000) * Rabs (a * d) + eta64 * (2 * Rabs a + 9 * Rabs d) + eta64 / 1000).
    { replace (A * y - a * d) with ((A - a) * d + a * (y - d) + (A - a) * (y - d)) by ring.
      eapply Rle_trans; [apply Rabs_triang|]. eapply Rle_trans; [apply Rplus_le_compat_r, Rabs_triang|]. rewrite !Rabs_mult.
      pose proof (Rabs_pos a) as A0. pose proof (Rabs_pos d) as D0. set (p := Rabs a) in *. set (q := Rabs d) in *. clearbody p q.
      pose proof (Rmult_le_compat_r q _ _ D0 HA). pose proof (Rmult_le_compat_l p _ _ A0 D).
      pose proof (Rmult_le_compat _ _ _ _ (Rabs_pos (A - a)) (Rabs_pos (y - d)) HA D).
      assert (0 <= p * q) by (apply Rmult_le_pos; lra). assert (0 <= u64 * (p * q)) by (apply Rmult_le_pos; lra).
      assert (0 <= eta64 * p) by (apply Rmult_le_pos; lra). assert (0 <= eta64 * q) by (apply Rmult_le_pos; lra).
      assert ((4 * u64 * p + 8 * eta64) * (u64 * q + eta64) <= u64 * (p * q) / 1000 + eta64 * p / 1000 + eta64 * q / 1000 + eta64 / 1000).
      { replace ((4 * u64 * p + 8 * eta64) * (u64 * q + eta64)) with (4 * u64 * (u64 * (p * q)) + 4 * u64 * (eta64 * p) + 8 * u64 * (eta64 * q) + 8 * eta64 * eta64) by ring.
        assert (4 * u64 * (u64 * (p * q)) <= 1 / 1000 * (u64 * (p * q))) by (apply Rmult_le_compat_r; lra).
        assert (4 * u64 * (eta64 * p) <= 1 / 1000 * (eta64 * p)) by (apply Rmult_le_compat_r; lra).
        assert (8 * u64 * (eta64 * q) <= 1 / 1000 * (eta64 * q)) by (apply Rmult_le_compat_r; lra).
        assert (8 * eta64 * eta64 <= 1 / 1000 * eta64) by (apply Rmult_le_compat_r; lra). lra. }
      lra. }
    split; [exact K|]. pose proof (Rabs_triang (A * y - a * d) (a * d)) as Q. replace (A * y - a * d + a * d) with (A * y) in Q by ring.
    pose proof (Rabs_pos (a * d)) as AD. assert (0 <= u64 * Rabs (a * d)) by (apply Rmult_le_pos; lra). lra. }
  destruct (T A1 a1 d1 H1) as (K1 & L1). destruct (T A2 a2 d2 H2) as (K2 & L2). destruct (T A3 a3 d3 H3) as (K3 & L3).
  pose proof (Hd (V3 A1 A2 A3) (V3 (frnd F d1) (frnd F d2) (frnd F d3))) as G. unfold dot in G. cbn [vx vy vz] in G.
  set (x1 := A1 * frnd F d1) in *. set (x2 := A2 * frnd F d2) in *. set (x3 := A3 * frnd F d3) in *.
  set (z := fdot F _ _) in *. clearbody x1 x2 x3 z.
  pose proof (Rabs_pos (a1 * d1)) as P1. pose proof (Rabs_pos (a2 * d2)) as P2. pose proof (Rabs_pos (a3 * d3)) as P3.
  pose proof (Rabs_pos a1) as Q1. pose proof (Rabs_pos a2) as Q2. pose proof (Rabs_pos a3) as Q3.
  pose proof (Rabs_pos d1) as R1. pose proof (Rabs_pos d2) as R2. pose proof (Rabs_pos d3) as R3.
  set (p1 := Rabs (a1 * d1)) in *. set (p2 := Rabs (a2 * d2)) in *. set (p3 := Rabs (a3 * d3)) in *.
  replace (z - (a1 * d1 + a2 * d2 + a3 * d3)) with ((z - (x1 + x2 + x3)) + ((x1 - a1 * d1) + (x2 - a2 * d2) + (x3 - a3 * d3))) by ring.
  eapply Rle_trans; [apply Rabs_triang|].
  eapply Rle_trans; [apply Rplus_le_compat; [exact G|eapply Rle_trans; [apply Rabs_triang|apply Rplus_le_compat_r, Rabs_triang]]|].
  set (W := p1 + p2 + p3). set (V := eta64 * (2 * (Rabs a1 + Rabs a2 + Rabs a3) + 9 * (Rabs d1 + Rabs d2 + Rabs d3)) + 3 * eta64 / 1000).
  assert (V0 : 0 <= V).
  { unfold V. assert (0 <= eta64 * (2 * (Rabs a1 + Rabs a2 + Rabs a3) + 9 * (Rabs d1 + Rabs d2 + Rabs d3))) by (apply Rmult_le_pos; lra). lra. }
  assert (W0 : 0 <= u64 * W) by (apply Rmult_le_pos; unfold W; lra).
  assert (LL : Rabs x1 + Rabs x2 + Rabs x3 <= (1 + u64 * 6) * W + V) by (unfold W, V; lra).
  assert (KK : Rabs (x1 - a1 * d1) + Rabs (x2 - a2 * d2) + Rabs (x3 - a3 * d3) <= (5 * u64 + u64 / 1000) * W + V) by (unfold W, V; lra).
  assert (M : 4 * u64 * (Rabs x1 + Rabs x2 + Rabs x3) <= 4 * u64 * ((1 + u64 * 6) * W + V)) by (apply Rmult_le_compat_l; lra).
  assert (M2 : 4 * u64 * ((1 + u64 * 6) * W + V) <= 4 * (u64 * W) + u64 * W / 1000 + V / 1000).
  { assert (24 * u64 * (u64 * W) <= 1 / 1000 * (u64 * W)) by (apply Rmult_le_compat_r; lra).
    assert (4 * u64 * V <= 1 / 1000 * V) by (apply Rmult_le_compat_r; lra). lra. }
  assert (X1 : 0 <= eta64 * (Rabs a1 + Rabs a2 + Rabs a3)) by (apply Rmult_le_pos; lra).
  assert (X2 : 0 <= eta64 * (Rabs d1 + Rabs d2 + Rabs d3)) by (apply Rmult_le_pos; lra).
  assert (FV : 1001 / 1000 * V + 8 * eta64 <= 10 * eta64 * (1 + (Rabs a1 + Rabs a2 + Rabs a3) + (Rabs d1 + Rabs d2 + Rabs d3))) by (unfold V; lra).
  lra.
Qed.
End Row.

Lemma comp_err F c meas ty b m0 m1 m2 m3 m4 m5 sf : float_ok F ->
  ty = "accel"%string /\ accel c = Err (Some b) [m0; m1; m2; m3; m4; m5] (Some sf) \/
  ty = "gyro"%string /\ gyro c = Err (Some b) [m0; m1; m2; m3; m4; m5] (Some sf) ->
  exists y ye, compensateMeasurement_f F c meas ty = Ret (true, y) /\ compensateMeasurement c meas ty = Ret (true, ye) /\
  let d := vsub meas b in
  let within x xe s a1 a2 a3 := Rabs (x - xe) <= 10 * u64 * Rabs s * (Rabs (a1 * vx d) + Rabs (a2 * vy d) + Rabs (a3 * vz d)) +
                                10 * eta64 * (1 + Rabs s * (Rabs a1 + Rabs a2 + Rabs a3) + (Rabs (vx d) + Rabs (vy d) + Rabs (vz d))) in
  within (vx y) (vx ye) (vx sf) 1 m0 m1 /\ within (vy y) (vy ye) (vy sf) m2 1 m3 /\ within (vz y) (vz ye) (vz sf) m4 m5 1.
Proof.
  intros HF H.
  assert (E : exists e, e = Err (Some b) [m0; m1; m2; m3; m4; m5] (Some sf) /\
    e = (if String.eqb ty "accel" then accel c else if String.eqb ty "gyro" then gyro c else Err None [] None)).
  { destruct H as [(-> & E)|(-> & E)]; eexists; (split; [reflexivity|]); cbn; auto. }
  destruct E as (e & E1 & E2).
  assert (R : forall s a1 a2 a3 d1 d2 d3 A1 A2 A3 xe, xe = s * a1 * d1 + s * a2 * d2 + s * a3 * d3 ->
    Rabs (A1 - s * a1) <= 4 * u64 * Rabs (s * a1) + 8 * eta64 -> Rabs (A2 - s * a2) <= 4 * u64 * Rabs (s * a2) + 8 * eta64 ->
    Rabs (A3 - s * a3) <= 4 * u64 * Rabs (s * a3) + 8 * eta64 ->
    Rabs (fdot F (V3 A1 A2 A3) (V3 (frnd F d1) (frnd F d2) (frnd F d3)) - xe) <=
      10 * u64 * Rabs s * (Rabs (a1 * d1) + Rabs (a2 * d2) + Rabs (a3 * d3)) +
      10 * eta64 * (1 + Rabs s * (Rabs a1 + Rabs a2 + Rabs a3) + (Rabs d1 + Rabs d2 + Rabs d3))).
  { intros s a1 a2 a3 d1 d2 d3 A1 A2 A3 xe -> X1 X2 X3. eapply Rle_trans; [exact (row_err F HF _ _ _ _ _ _ d1 d2 d3 X1 X2 X3)|].
    apply Req_le. rewrite !Rabs_mult. ring. }
  assert (N : forall s a, Rabs (s * a) + 0 + 0 = Rabs (s * a)) by (intros; ring).
  unfold compensateMeasurement_f, compensateMeasurement. rewrite <- E2, E1. cbn [e_b e_m e_sf value elem nth_error bind].
  eexists _, _. split; [reflexivity|]. split; [reflexivity|]. cbv beta zeta. unfold mvmul, mmul, mmul_f, vsub, row1, row2, row3, col1, col2, col3. cbn [vx vy vz m11 m12 m13 m21 m22 m23 m31 m32 m33].
  repeat split; (apply R; [unfold dot; cbn [vx vy vz]; ring| | |]);
    (eapply (entry_err F HF); [| |reflexivity]; [cbn [vx vy vz]; rewrite !Rmult_0_l, Rabs_R0; ring|unfold dot; cbn [vx vy vz]; ring]).
Qed.

(** Errors that are all zero leave every double as it is. *)
Lemma rnd64_1 : rnd64 1 = 1.
Proof. replace 1 with (IZR 1 * bpow radix2 0) by (cbn; ring). apply rnd64_exact; lia. Qed.
Lemma comp_identity c x y z ty : rnd64 x = x -> rnd64 y = y -> rnd64 z = z ->
  ty = "accel"%string /\ accel c = Err (Some v3zero) [0; 0; 0; 0; 0; 0] (Some (V3 1 1 1)) \/
  ty = "gyro"%string /\ gyro c = Err (Some v3zero) [0; 0; 0; 0; 0; 0] (Some (V3 1 1 1)) ->
  compensateMeasurement_f binary64_ops c (V3 x y z) ty = Ret (true, V3 x y z).
Proof.
  intros X Y Z H.
  assert (E : (if String.eqb ty "accel" then accel c else if String.eqb ty "gyro" then gyro c else Err None [] None) = Err (Some v3zero) [0; 0; 0; 0; 0; 0] (Some (V3 1 1 1))).
  { destruct H as [(-> & E)|(-> & E)]; cbn; auto. }
  unfold compensateMeasurement_f. rewrite E. cbn. unfold v3zero. cbn [vx vy vz].
  repeat rewrite ?Rmult_0_l, ?Rmult_0_r, ?Rmult_1_l, ?Rmult_1_r, ?Rminus_0_r, ?Rplus_0_l, ?Rplus_0_r, ?rnd64_0, ?rnd64_1, ?X, ?Y, ?Z. reflexivity.
Qed.
