(** Model of the frame conversions of src/util/Rotations.cpp (lines 13-153).
    [M_PI] is the real number pi; the behaviour of the range guards on NaN is
    modelled separately in ModelGuardFloat.v. *)
From Coq Require Import Reals List.
From Verif Require Import Base BaseVec ModelGravity.
Open Scope R_scope.

(** Rotations.cpp 14-43.  [RE2N] is the old value of the output. *)
Definition computeREcef2Ned (lat lon : R) (RE2N : mat3) : bool * mat3 :=
  if Rlt_dec (PI / 2) (Rabs lat) then (false, RE2N)
  else if Rlt_dec PI (Rabs lon) then (false, RE2N)
  else
    let slat := sin lat in let clat := cos lat in
    let slon := sin lon in let clon := cos lon in
    (true, M3 (- slat * clon) (- slat * slon) clat
              (- slon) clon 0
              (- clat * clon) (- clat * slon) (- slat)).

(** Rotations.cpp 46-75. *)
Definition computeRNed2Ecef (lat lon : R) (RN2E : mat3) : bool * mat3 :=
  if Rlt_dec (PI / 2) (Rabs lat) then (false, RN2E)
  else if Rlt_dec PI (Rabs lon) then (false, RN2E)
  else
    let slat := sin lat in let clat := cos lat in
    let slon := sin lon in let clon := cos lon in
    (true, M3 (- slat * clon) (- slon) (- clat * clon)
              (- slat * slon) clon (- clat * slon)
              clat 0 (- slat)).

(** Rotations.cpp 78-118.  Returns (lat, lon, alt).  Divisions by the non-zero
    constant b*b are plain real divisions; [std::pow] is repeated product.
    [cosf] is the std::cos evaluated at the division of line 107: the rounded
    cosine of the double nearest to pi/2 is not 0, so the behaviour on the polar
    axis depends on it; [ecef2Lla] takes the exact cosine. *)
Definition ecef2Lla_with (cosf : R -> R) (rE : vec3) : outcome (bool * (R * R * R)) :=
  let x := vx rE in let y := vy rE in let z := vz rE in
  let a := gp_a in let b := gp_b in let f := gp_f in
  e <- sqrtc (1 - (1 - f) * (1 - f)) ;;
  ep <- sqrtc ((a * a - b * b) / (b * b)) ;;
  p <- sqrtc (x * x + y * y) ;;
  let th := atan2 (a * z) (b * p) in
  let lon0 := atan2 y x in
  let latY := z + ((ep * ep) * b * (sin th * sin th * sin th)) in
  let latX := p - ((e * e) * a * (cos th * cos th * cos th)) in
  let lat := atan2 latY latX in
  s <- sqrtc (1 - ((e * e) * (sin lat * sin lat))) ;;
  N <- Rdivc a s ;;
  q <- Rdivc p (cosf lat) ;;
  let alt := q - N in
  lon1 <- fmodc lon0 (2 * PI) ;;
  let lon := if Rlt_dec PI lon1 then lon1 - 2 * PI else lon1 in
  Ret (true, (lat, lon, alt)).
Definition ecef2Lla : vec3 -> outcome (bool * (R * R * R)) := ecef2Lla_with cos.

(** Rotations.cpp 121-153.  [rE] is the old value of the output. *)
Definition lla2Ecef (lat lon alt : R) (rE : vec3) : outcome (bool * vec3) :=
  if Rlt_dec (PI / 2) (Rabs lat) then Ret (false, rE)
  else if Rlt_dec PI (Rabs lon) then Ret (false, rE)
  else
    let a := gp_a in let f := gp_f in
    e <- sqrtc (1 - (1 - f) * (1 - f)) ;;
    s <- sqrtc (1 - ((e * e) * (sin lat * sin lat))) ;;
    N <- Rdivc a s ;;
    Ret (true, V3 ((N + alt) * cos lat * cos lon)
                  ((N + alt) * cos lat * sin lon)
                  ((((1 - e * e) * N) + alt) * sin lat)).
