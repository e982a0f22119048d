(** Model of src/inertial/pvaErrorDynamics.cpp.  Doubles are exact reals with
    checked divisions; std::cout is not modelled. *)
From Coq Require Import Reals List.
From Verif Require Import Base BaseVec ModelGravity ModelNavUtils.
Import ListNotations.
Open Scope R_scope.

(** Eigen::MatrixXd::Zero(n, m) and the assignment of a 3x3 block at (i, j). *)
Definition mx_zero (n m : nat) : MatrixXd := MX n m (fun _ _ => 0).
Definition set_block (A : MatrixXd) (i j : nat) (B : mat3) : MatrixXd :=
  MX (mx_rows A) (mx_cols A) (fun r c =>
    if andb (andb (Nat.leb i r) (Nat.ltb r (i + 3))) (andb (Nat.leb j c) (Nat.ltb c (j + 3)))
    then mx_at (MX_of_mat3 B) (r - i) (c - j) else mx_at A r c).

(** The size checks at the top of the three functions. *)
Definition is9x9 (A : MatrixXd) : bool := andb (Nat.eqb (mx_rows A) 9) (Nat.eqb (mx_cols A) 9).

(** pvaErrorDynamics.cpp 15-63.  [F], [G] are the old values of the outputs. *)
Definition inertialErrorDynamics (aI : vec3) (GI RS2I : mat3) (F G : MatrixXd) : bool * (MatrixXd * MatrixXd) :=
  if negb (is9x9 F) then (false, (F, G))
  else if negb (is9x9 G) then (false, (F, G))
  else
    let F := mx_zero 9 9 in
    let G := mx_zero 9 9 in
    let '(ok, aX) := skewSymmetric aI in
    if negb ok then (false, (F, G))
    else
      let F := set_block F 3 0 aX in
      let F := set_block F 6 3 m3id in
      let F := set_block F 3 6 GI in
      let G := set_block G 0 0 (mneg RS2I) in
      let G := set_block G 3 3 RS2I in
      let G := set_block G 3 6 m3id in
      (true, (F, G)).

(** pvaErrorDynamics.cpp 66-121. *)
Definition ecefErrorDynamics (aE : vec3) (GE RS2E OEI_E : mat3) (F G : MatrixXd) : bool * (MatrixXd * MatrixXd) :=
  if negb (is9x9 F) then (false, (F, G))
  else if negb (is9x9 G) then (false, (F, G))
  else
    let F := mx_zero 9 9 in
    let G := mx_zero 9 9 in
    let F := set_block F 0 0 (mneg OEI_E) in
    let '(ok, aX) := skewSymmetric aE in
    if negb ok then (false, (F, G))
    else
      let F := set_block F 3 0 aX in
      let F := set_block F 3 3 (mscale (- 2) OEI_E) in
      let F := set_block F 6 3 m3id in
      let F := set_block F 3 6 (mneg (msub (mmul OEI_E OEI_E) GE)) in
      let G := set_block G 0 0 (mneg RS2E) in
      let G := set_block G 3 3 RS2E in
      let G := set_block G 3 6 m3id in
      (true, (F, G)).

(** The comma initialiser: a matrix given by its rows. *)
Definition mx_of_rows (n m : nat) (rows : list (list R)) : MatrixXd :=
  MX n m (fun i j => nth j (nth i rows []) 0).

(** std::tan: no finite value where the cosine vanishes. *)
Definition tanc (x : R) : outcome R := Rdivc (sin x) (cos x).

(** pvaErrorDynamics.cpp 124-240.  [std::pow(x, 1.5)] is [Rpower x 1.5] and
    [std::pow(x, 0.5)] the square root, both of positive numbers here.  lla[1] is
    read into an unused local. *)
Definition nedErrorDynamics (aN : vec3) (GN RS2N : mat3) (lla llaDot llaDDot : vec3) (F G : MatrixXd)
  : outcome (bool * (MatrixXd * MatrixXd)) :=
  if negb (is9x9 F) then Ret (false, (F, G))
  else if negb (is9x9 G) then Ret (false, (F, G))
  else
    let lat := vx lla in let h := vz lla in
    let latDot := vx llaDot in let lonDot := vy llaDot in let hDot := vz llaDot in
    let latDDot := vx llaDDot in let lonDDot := vy llaDDot in
    let a1 := vx aN in let a2 := vy aN in let a3 := vz aN in
    let G33 := m33 GN in
    let wE := gp_wE in let fE := gp_f in let a := gp_a in
    let eSq := (2 * fE) - (fE * fE) in
    let slat := sin lat in let clat := cos lat in
    tlat <- tanc lat ;;
    let s2lat := sin (2 * lat) in let c2lat := cos (2 * lat) in
    sq <- sqrtc (1 - (eSq * (slat * slat))) ;;
    N <- Rdivc a sq ;;
    M <- Rdivc (a * (1 - eSq)) (Rpower (1 - (eSq * (slat * slat))) (3/2)) ;;
    RPhi <- sqrtc (N * M) ;;
    let r := RPhi + h in
    let l1Dot := lonDot + wE in
    let l2Dot := lonDot + (2 * wE) in
    let F12 := - l1Dot * slat in
    let F13 := latDot in
    let F15 := clat in
    let F17 := - l1Dot * slat in
    let F21 := l1Dot * slat in
    let F23 := l1Dot * clat in
    let F31 := - latDot in
    let F32 := - l1Dot * clat in
    let F35 := - slat in
    let F37 := - l1Dot * clat in
    F42 <- Rdivc (- a3) r ;;
    F43 <- Rdivc a2 r ;;
    F44 <- Rdivc (- 2 * hDot) r ;;
    let F45 := - l1Dot * s2lat in
    F46 <- Rdivc (- 2 * latDot) r ;;
    let F47 := - lonDot * l2Dot * c2lat in
    F49 <- Rdivc (latDDot + (0.5 * lonDot * l2Dot * s2lat)) (- r) ;;
    F51 <- Rdivc a3 (r * clat) ;;
    F53 <- Rdivc (- a1) (r * clat) ;;
    let F54 := 2 * l1Dot * tlat in
    q55 <- Rdivc hDot r ;;
    let F55 := 2 * ((latDot * tlat) - q55) in
    F56 <- Rdivc (- 2 * l1Dot) r ;;
    q57 <- Rdivc (hDot * tlat) r ;;
    let F57 := (2 * l1Dot * (latDot + q57)) + (lonDDot * tlat) in
    F59 <- Rdivc ((2 * latDot * tlat) - lonDDot) r ;;
    let F61 := a2 in
    let F62 := - a1 in
    let F64 := 2 * r * latDot in
    let F65 := 2 * r * l1Dot * (clat * clat) in
    let F67 := - r * lonDot * l2Dot * s2lat in
    let F69 := (latDot * latDot) + (lonDot * l2Dot * (clat * clat)) + G33 in
    let F' := mx_of_rows 9 9
      [ [0;   F12; F13; 0;   F15; 0;   F17; 0; 0];
        [F21; 0;   F23; -1;  0;   0;   0;   0; 0];
        [F31; F32; 0;   0;   F35; 0;   F37; 0; 0];
        [0;   F42; F43; F44; F45; F46; F47; 0; F49];
        [F51; 0;   F53; F54; F55; F56; F57; 0; F59];
        [F61; F62; 0;   F64; F65; 0;   F67; 0; F69];
        [0;   0;   0;   1;   0;   0;   0;   0; 0];
        [0;   0;   0;   0;   1;   0;   0;   0; 0];
        [0;   0;   0;   0;   0;   1;   0;   0; 0] ] in
    let D := M3 (M + h) 0 0  0 ((N + h) * clat) 0  0 0 (-1) in
    Dinv <- minvc D ;;
    let G' := mx_zero 9 9 in
    let G' := set_block G' 0 0 (mneg RS2N) in
    let G' := set_block G' 3 3 (mmul Dinv RS2N) in
    let G' := set_block G' 3 6 Dinv in
    Ret (true, (F', G')).
