(** No overflow in the compensation of a measurement. *)
From Coq Require Import Reals ZArith List String Lra Lia.
From Flocq Require Import Core.
From Verif Require Import Base BaseVec ModelCompensator ModelCompFloat ModelDate ModelStrapdownFloat SpecOverflow ProofOverflow.
Import ListNotations.
Open Scope R_scope.

Definition err_le (k : Z) (e : Errors) : Prop :=
  (forall b, e_b e = Some b -> vbd k b) /\ (forall x, In x (e_m e) -> bd k x) /\ (forall s, e_sf e = Some s -> vbd k s).
Lemma comp_same r c meas t : binary64_in_range r -> err_le 200 (accel c) -> err_le 200 (gyro c) -> vbd 200 meas ->
  compensateMeasurement_f (ops_of r) c meas t = compensateMeasurement_f binary64_ops c meas t.
Proof.
  intros Hr Ha Hg Hm. unfold compensateMeasurement_f. cbv zeta.
  set (e := if String.eqb t "accel" then accel c else if String.eqb t "gyro" then gyro c else Err None [] None).
  assert (He : err_le 200 e) by (unfold e; destruct (String.eqb t "accel"); [exact Ha|]; destruct (String.eqb t "gyro"); [exact Hg|]; repeat split; cbn; intros; try discriminate; contradiction).
  clearbody e. destruct He as (Hb & Hx & Hs). unfold value. destruct (e_b e) as [b|]; [|reflexivity]. cbn [bind]. destruct (e_sf e) as [s|]; [|reflexivity]. cbn [bind].
  specialize (Hb b eq_refl). specialize (Hs s eq_refl). unfold elem.
  repeat match goal with |- context [nth_error (e_m e) ?i] => let E := fresh "E" in destruct (nth_error (e_m e) i) eqn:E; [apply nth_error_In in E; apply Hx in E|reflexivity]; cbn [bind] end.
  assert (B1 : bd 200 1) by (apply (bd_w 0); [apply bd_1|lia]). pose proof (bd_0 200).
  destruct Hb as (b1 & b2 & b3). destruct Hs as (s1 & s2 & s3). destruct Hm as (m1 & m2 & m3).
  match goal with |- context [mmul_f _ ?P ?Q] => assert (HP : mbd 200 P) by (unfold mbd, vbd; cbn; repeat split; assumption);
    assert (HQ : mbd 200 Q) by (unfold mbd, vbd; cbn; repeat split; assumption);
    destruct (mmul_same r P Q 200 200 Hr HP HQ ltac:(lia)) as (EM & BM) end.
  rewrite EM. change (frnd (ops_of r)) with r. change (frnd binary64_ops) with rnd64.
  rewrite (same r Hr 201 (vx meas - vx b)) by (try lia; now apply (bd_sub 200)). rewrite (same r Hr 201 (vy meas - vy b)) by (try lia; now apply (bd_sub 200)).
  rewrite (same r Hr 201 (vz meas - vz b)) by (try lia; now apply (bd_sub 200)).
  set (d := V3 (rnd64 (vx meas - vx b)) (rnd64 (vy meas - vy b)) (rnd64 (vz meas - vz b))). assert (Bd : vbd 201 d) by (unfold vbd, d; cbn; repeat split; apply bd_rnd; try lia; now apply (bd_sub 200)).
  destruct BM as (R1 & R2 & R3).
  destruct (dot_same r _ d _ 201 Hr R1 Bd ltac:(lia)) as (W1 & _). destruct (dot_same r _ d _ 201 Hr R2 Bd ltac:(lia)) as (W2 & _).
  destruct (dot_same r _ d _ 201 Hr R3 Bd ltac:(lia)) as (W3 & _). rewrite W1, W2, W3. reflexivity.
Qed.
Lemma comp_same' r c meas t : binary64_in_range r ->
  (forall e, In e [accel c; gyro c] -> (forall v x, e_b e = Some v \/ e_sf e = Some v -> In x [vx v; vy v; vz v] -> Rabs x <= bpow radix2 200) /\
    forall x, In x (e_m e) -> Rabs x <= bpow radix2 200) ->
  (forall x, In x [vx meas; vy meas; vz meas] -> Rabs x <= bpow radix2 200) ->
  compensateMeasurement_f (ops_of r) c meas t = compensateMeasurement_f binary64_ops c meas t.
Proof.
  intros Hr He Hm. assert (K : forall e, In e [accel c; gyro c] -> err_le 200 e).
  { intros e I. destruct (He e I) as (H1 & H2). split; [|split]; [| exact H2 |];
      intros v E; unfold vbd, bd; repeat split; (eapply H1; [eauto|cbn; tauto]). }
  apply comp_same; auto using in_eq, in_cons. unfold vbd, bd. repeat split; apply Hm; cbn; tauto.
Qed.
Definition comp0 : Compensator := Comp (Err (Some (V3 (1/4) (1/8) 0)) [0; 0; 1/16; 0; 0; 0] (Some (V3 1 1 1))) (Err None [] None).
Lemma comp_case :
  (forall e, In e [accel comp0; gyro comp0] -> (forall v x, e_b e = Some v \/ e_sf e = Some v -> In x [vx v; vy v; vz v] -> Rabs x <= bpow radix2 200) /\
    forall x, In x (e_m e) -> Rabs x <= bpow radix2 200).
Proof.
  assert (K : forall x, 0 <= x <= 1 -> Rabs x <= bpow radix2 200).
  { intros x Hx. rewrite Rabs_pos_eq by lra. apply Rle_trans with 1; [lra|]. change 1 with (bpow radix2 0). apply bpow_le. lia. }
  intros e [<-|[<-|[]]]; cbn; split.
  - intros v x [E|E]; injection E as <-; cbn; intros [<-|[<-|[<-|[]]]]; apply K; lra.
  - intros x H. repeat (destruct H as [<-|H]; [apply K; lra|]). contradiction.
  - intros v x [E|E]; discriminate.
  - contradiction.
Qed.
