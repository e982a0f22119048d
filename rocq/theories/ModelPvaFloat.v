(** src/inertial/pvaErrorDynamics.cpp in rounded arithmetic: each operation is
    followed by a rounding, decimal literals are rounded, negation and copying are
    exact; std::sin, std::cos, std::tan, std::pow(x, 2), std::pow(x, 1.5) and
    std::pow(x, 0.5) are parameters.  Overflow is not modelled.  No proofs here. *)
From Coq Require Import Reals List.
From Verif Require Import Base BaseVec ModelNavUtils ModelPva ModelStrapdownFloat ModelFramesFloat ModelGravityFloat ModelCoarseFloat.
Import ListNotations.
Open Scope R_scope.

Definition mmap (f : R -> R) (A : mat3) : mat3 :=
  M3 (f (m11 A)) (f (m12 A)) (f (m13 A)) (f (m21 A)) (f (m22 A)) (f (m23 A)) (f (m31 A)) (f (m32 A)) (f (m33 A)).

(** pvaErrorDynamics.cpp 66-121.  lines 15-63 only copy and negate. *)
Definition ecefErrorDynamics_f (Fo : FloatOps) (aE : vec3) (GE RS2E OEI_E : mat3) (F G : MatrixXd) : bool * (MatrixXd * MatrixXd) :=
  if negb (is9x9 F) then (false, (F, G))
  else if negb (is9x9 G) then (false, (F, G))
  else
    let r := frnd Fo in
    let F := mx_zero 9 9 in
    let G := mx_zero 9 9 in
    let F := set_block F 0 0 (mneg OEI_E) in
    let '(ok, aX) := skewSymmetric aE in
    if negb ok then (false, (F, G))
    else
      let F := set_block F 3 0 aX in
      let F := set_block F 3 3 (mmap r (mscale (- 2) OEI_E)) in
      let F := set_block F 6 3 m3id in
      let F := set_block F 3 6 (mneg (mmap r (msub (mmul_f Fo OEI_E OEI_E) GE))) in
      let G := set_block G 0 0 (mneg RS2E) in
      let G := set_block G 3 3 RS2E in
      let G := set_block G 3 6 m3id in
      (true, (F, G)).

(** pvaErrorDynamics.cpp 124-240.  [tanf] and [powh] are std::tan and
    std::pow(x, 0.5). *)
Definition nedErrorDynamics_f (Fo : FloatOps) (pow2 pow15 powh tanf : R -> R) (aN : vec3) (GN RS2N : mat3) (lla llaDot llaDDot : vec3) (F G : MatrixXd)
  : outcome (bool * (MatrixXd * MatrixXd)) :=
  if negb (is9x9 F) then Ret (false, (F, G))
  else if negb (is9x9 G) then Ret (false, (F, G))
  else
    let r := frnd Fo in
    let lat := vx lla in let h := vz lla in
    let latDot := vx llaDot in let lonDot := vy llaDot in let hDot := vz llaDot in
    let latDDot := vx llaDDot in let lonDDot := vy llaDDot in
    let a1 := vx aN in let a2 := vy aN in let a3 := vz aN in
    let G33 := m33 GN in
    let wE := gp_wE_f Fo in let fE := gp_f_f Fo in let a := gp_a_f in
    let eSq := r (r (2 * fE) - pow2 fE) in
    let slat := fsin Fo lat in let clat := fcos Fo lat in
    let tlat := tanf lat in
    let s2lat := fsin Fo (r (2 * lat)) in let c2lat := fcos Fo (r (2 * lat)) in
    s <- sqrtc (r (1 - r (eSq * pow2 slat))) ;;
    N0 <- Rdivc a (r s) ;;
    let N := r N0 in
    M0 <- Rdivc (r (a * r (1 - eSq))) (pow15 (r (1 - r (eSq * pow2 slat)))) ;;
    let M := r M0 in
    let RPhi := powh (r (N * M)) in
    let rr := r (RPhi + h) in
    let l1Dot := r (lonDot + wE) in
    let l2Dot := r (lonDot + r (2 * wE)) in
    let F12 := r (- l1Dot * slat) in
    let F13 := latDot in
    let F15 := clat in
    let F17 := r (- l1Dot * slat) in
    let F21 := r (l1Dot * slat) in
    let F23 := r (l1Dot * clat) in
    let F31 := - latDot in
    let F32 := r (- l1Dot * clat) in
    let F35 := - slat in
    let F37 := r (- l1Dot * clat) in
    F42 <- Rdivc (- a3) rr ;;
    F43 <- Rdivc a2 rr ;;
    F44 <- Rdivc (r (- 2 * hDot)) rr ;;
    let F45 := r (- l1Dot * s2lat) in
    F46 <- Rdivc (r (- 2 * latDot)) rr ;;
    let F47 := r (r (- lonDot * l2Dot) * c2lat) in
    F49 <- Rdivc (r (latDDot + r (r (r (0.5 * lonDot) * l2Dot) * s2lat))) (- rr) ;;
    F51 <- Rdivc a3 (r (rr * clat)) ;;
    F53 <- Rdivc (- a1) (r (rr * clat)) ;;
    let F54 := r (r (2 * l1Dot) * tlat) in
    q55 <- Rdivc hDot rr ;;
    let F55 := r (2 * r (r (latDot * tlat) - r q55)) in
    F56 <- Rdivc (r (- 2 * l1Dot)) rr ;;
    q57 <- Rdivc (r (hDot * tlat)) rr ;;
    let F57 := r (r (r (2 * l1Dot) * r (latDot + r q57)) + r (lonDDot * tlat)) in
    F59 <- Rdivc (r (r (r (2 * latDot) * tlat) - lonDDot)) rr ;;
    let F61 := a2 in
    let F62 := - a1 in
    let F64 := r (r (2 * rr) * latDot) in
    let F65 := r (r (r (2 * rr) * l1Dot) * pow2 clat) in
    let F67 := r (r (r (- rr * lonDot) * l2Dot) * s2lat) in
    let F69 := r (r (r (latDot * latDot) + r (r (lonDot * l2Dot) * pow2 clat)) + G33) in
    let F' := mx_of_rows 9 9
      [ [0;   F12;   F13;   0;     F15;   0;     F17;   0; 0];
        [F21; 0;     F23;   -1;    0;     0;     0;     0; 0];
        [F31; F32;   0;     0;     F35;   0;     F37;   0; 0];
        [0;   r F42; r F43; r F44; F45;   r F46; F47;   0; r F49];
        [r F51; 0;   r F53; F54;   F55;   r F56; F57;   0; r F59];
        [F61; F62;   0;     F64;   F65;   0;     F67;   0; F69];
        [0;   0;     0;     1;     0;     0;     0;     0; 0];
        [0;   0;     0;     0;     1;     0;     0;     0; 0];
        [0;   0;     0;     0;     0;     1;     0;     0; 0] ] in
    let D := M3 (r (M + h)) 0 0  0 (r (r (N + h) * clat)) 0  0 0 (-1) in
    Dinv <- minvc_f Fo D ;;
    let G' := mx_zero 9 9 in
    let G' := set_block G' 0 0 (mneg RS2N) in
    let G' := set_block G' 3 3 (mmul_f Fo Dinv RS2N) in
    let G' := set_block G' 3 6 Dinv in
    Ret (true, (F', G')).
