(** The error dynamics with the bounds spelt out. *)
From Coq Require Import Reals ZArith List Lra Lia.
From Flocq Require Import Core.
From Verif Require Import Base BaseVec ModelNavUtils ModelPva ModelDate ModelStrapdownFloat ModelPvaFloat
  SpecFloatOps SpecOverflow ProofRnd ProofOverflow ProofOverflow2 ProofOverflow18.
Import ListNotations.
Open Scope R_scope.

Lemma mbd_in k A : (forall x, In x [m11 A; m12 A; m13 A; m21 A; m22 A; m23 A; m31 A; m32 A; m33 A] -> Rabs x <= bpow radix2 k) -> mbd k A.
Proof. intros H. repeat split; apply H; cbn; tauto. Qed.
Lemma vbd_in k v : (forall x, In x [vx v; vy v; vz v] -> Rabs x <= bpow radix2 k) -> vbd k v.
Proof. intros H. repeat split; apply H; cbn; tauto. Qed.

Lemma ecef_error_same' : forall r aE GE RS OE F G, binary64_in_range r ->
  (forall x, In x [m11 GE; m12 GE; m13 GE; m21 GE; m22 GE; m23 GE; m31 GE; m32 GE; m33 GE] -> Rabs x <= bpow radix2 400) ->
  (forall x, In x [m11 OE; m12 OE; m13 OE; m21 OE; m22 OE; m23 OE; m31 OE; m32 OE; m33 OE] -> Rabs x <= bpow radix2 400) ->
  ecefErrorDynamics_f (ops_of r) aE GE RS OE F G = ecefErrorDynamics_f binary64_ops aE GE RS OE F G.
Proof. intros. apply ecef_error_same; auto using mbd_in. Qed.

Lemma ned_error_same' : forall r aN GN RS lla llaDot llaDDot F G, binary64_in_range r ->
  bpow radix2 (-100) <= Rabs (rnd64 (cos (vx lla))) -> - bpow radix2 22 <= vz lla <= bpow radix2 100 -> Rabs (vx lla) <= bpow radix2 100 ->
  (forall v x, In v [llaDot; llaDDot; aN] -> In x [vx v; vy v; vz v] -> Rabs x <= bpow radix2 100) ->
  (forall A x, In A [GN; RS] -> In x [m11 A; m12 A; m13 A; m21 A; m22 A; m23 A; m31 A; m32 A; m33 A] -> Rabs x <= bpow radix2 100) ->
  nedErrorDynamics_f (ops_of r) (fun x => r (x * x)) (fun x => r (Rpower x (3 / 2))) (fun x => r (sqrt x)) (fun x => r (tan x)) aN GN RS lla llaDot llaDDot F G =
  nedErrorDynamics_f binary64_ops (fun x => rnd64 (x * x)) (fun x => rnd64 (Rpower x (3 / 2))) (fun x => rnd64 (sqrt x)) (fun x => rnd64 (tan x)) aN GN RS lla llaDot llaDDot F G.
Proof.
  intros r aN GN RS lla q p F G Hr Hc Hh Hl Hv Hm. apply ned_error_same; try assumption; first [apply vbd_in; intros x; apply Hv|apply mbd_in; intros x; apply Hm]; cbn; tauto.
Qed.

Lemma error_case : bpow radix2 (-100) <= Rabs (rnd64 (cos 0)) /\ - bpow radix2 22 <= 1000 <= bpow radix2 100 /\
  (forall v x, In v [V3 (1/10000) (-1/10000) 3; V3 0 0 1; V3 0 (1/2) (-9)] -> In x [vx v; vy v; vz v] -> Rabs x <= bpow radix2 100) /\
  is9x9 (mx_zero 9 9) = true.
Proof.
  assert (A : 1024 <= bpow radix2 100) by (change 1024 with (bpow radix2 10); apply bpow_le; lia). change (bpow radix2 22) with 4194304. split; [|split; [|split]].
  - rewrite cos_0. eapply Rle_trans; [|apply Rle_abs]. apply rnd64_ge_bpow; [lia|]. change 1 with (bpow radix2 0). apply bpow_le; lia.
  - lra.
  - intros v x [<-|[<-|[<-|[]]]]; cbn [vx vy vz]; intros [<-|[<-|[<-|[]]]]; apply Rabs_le; lra.
  - reflexivity.
Qed.
