(** Theorems C152: the error dynamics in double arithmetic. *)
From Coq Require Import Reals ZArith List Lra.
From Flocq Require Import Core.
From Verif Require Import Base BaseVec SpecPva SpecFloatOps SpecPvaFloat ModelPva ModelStrapdownFloat ModelDate ModelPvaFloat ModelFramesFloat ProofFramesFloat ProofStrapdownFloat ProofStrapdownFloat2 ProofNavFloat2 ProofPvaFloat4.
Open Scope R_scope.

(** C152: away from the poles and for ordinary flight, both matrices of the local
    level error model come out, with every entry as close to the exact one as
    [ned_F_tol] and [ned_G_tol] say. *)
Theorem C152_ned_error : forall F pow2 pow15 powh tanf, float_ok F -> pow2_ok pow2 ->
  (forall x, 1 / 2 <= x <= 2 -> Rabs (pow15 x - Rpower x (3 / 2)) <= 4 * u64) -> powh_ok powh -> tan_ok tanf ->
  forall a1 a2 a3 lat lon h latDot lonDot hDot latDDot lonDDot hDDot GN RS,
  Rabs a1 <= 1000 -> Rabs a2 <= 1000 -> Rabs a3 <= 1000 -> Rabs latDot <= 1 / 1000 -> Rabs lonDot <= 1 / 100 -> Rabs hDot <= 1200 ->
  Rabs latDDot <= 1 / 1000 -> Rabs lonDDot <= 1 / 1000 -> Rabs (m33 GN) <= 1 -> Rabs lat <= 3 / 2 -> Rabs h <= 110000 -> cells_le 2 RS ->
  forall F0 G0, size9 F0 -> size9 G0 -> exists A B A' B',
  nedErrorDynamics (V3 a1 a2 a3) GN RS (V3 lat lon h) (V3 latDot lonDot hDot) (V3 latDDot lonDDot hDDot) F0 G0 = Ret (true, (A, B)) /\
  nedErrorDynamics_f F pow2 pow15 powh tanf (V3 a1 a2 a3) GN RS (V3 lat lon h) (V3 latDot lonDot hDot) (V3 latDDot lonDDot hDDot) F0 G0 = Ret (true, (A', B')) /\
  size9 A /\ size9 B /\ rows_within ned_F_tol A' A /\ rows_within ned_G_tol B' B.
Proof. exact (fun F p2 p15 ph tf HF HP H15 => ned_close F HF p2 HP p15 H15 ph tf). Qed.
Print Assumptions C152_ned_error.

(** The Earth-fixed error model: the input matrix is exact, and the dynamics
    matrix is exact apart from the rows of the velocity error. *)
Theorem C152_ecef_error : forall F, float_ok F -> forall W g, 0 <= W -> 0 <= g -> forall a GE RS Om F0 G0,
  size9 F0 -> size9 G0 -> cells_le W Om -> cells_le g GE -> exists A B A',
  ecefErrorDynamics a GE RS Om F0 G0 = (true, (A, B)) /\ ecefErrorDynamics_f F a GE RS Om F0 G0 = (true, (A', B)) /\
  size9 A /\ size9 B /\ rows_within (ecef_F_tol W g) A' A.
Proof. exact ecef_close. Qed.
Print Assumptions C152_ecef_error.

(** Without rounding the functions are the exact ones. *)
Theorem C152_exact_arithmetic : forall a GN RS lla ld ldd Om F0 G0, cos (vx lla) <> 0 ->
  nedErrorDynamics_f exact_ops (fun x => x * x) (fun x => Rpower x (3 / 2)) sqrt tan a GN RS lla ld ldd F0 G0 = nedErrorDynamics a GN RS lla ld ldd F0 G0 /\
  ecefErrorDynamics_f exact_ops a GN RS Om F0 G0 = ecefErrorDynamics a GN RS Om F0 G0.
Proof. exact (fun a GN RS lla ld ldd Om F0 G0 C => conj (ned_exact a GN RS lla ld ldd F0 G0 C) (ecef_exact a GN RS Om F0 G0)). Qed.
Print Assumptions C152_exact_arithmetic.

(** Correctly rounded roots and tangents meet the hypotheses. *)
Theorem C152_binary64 : float_ok binary64_ops /\ powh_ok (fun x => frnd binary64_ops (sqrt x)) /\ tan_ok (fun x => frnd binary64_ops (tan x)).
Proof. exact (conj binary64_ok (conj powh_64_ok tan_64_ok)). Qed.
Print Assumptions C152_binary64.

(** An aircraft at 45 degrees, 9 km up, moving north-east. *)
Example C152_case : exists A B A' B',
  nedErrorDynamics (V3 (1 / 10) 0 (-981 / 100)) m3id m3id (V3 (PI / 4) 1 9000) (V3 (1 / 40000) (1 / 30000) (-2)) (V3 0 0 0) (mx_zero 9 9) (mx_zero 9 9) = Ret (true, (A, B)) /\
  nedErrorDynamics_f binary64_ops pow2_64 (fun x => rnd64 (Rpower x (3 / 2))) (fun x => frnd binary64_ops (sqrt x)) (fun x => frnd binary64_ops (tan x))
    (V3 (1 / 10) 0 (-981 / 100)) m3id m3id (V3 (PI / 4) 1 9000) (V3 (1 / 40000) (1 / 30000) (-2)) (V3 0 0 0) (mx_zero 9 9) (mx_zero 9 9) = Ret (true, (A', B')) /\
  size9 A /\ size9 B /\ rows_within ned_F_tol A' A /\ rows_within ned_G_tol B' B.
Proof.
  pose proof PI_4 as P4. pose proof PI_RGT_0 as P0.
  apply (C152_ned_error binary64_ops pow2_64 (fun x => rnd64 (Rpower x (3 / 2))) _ _ binary64_ok pow2_64_ok pow15_64_ok powh_64_ok tan_64_ok);
    try (split; reflexivity); try (apply Rabs_le; cbn [m3id m33]; lra).
  unfold cells_le, m3id. cbn [m11 m12 m13 m21 m22 m23 m31 m32 m33]. repeat split; apply Rabs_le; lra.
Qed.
