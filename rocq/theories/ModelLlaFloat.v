(** Rotations::ecef2Lla in rounded arithmetic: each operation is followed by a
    rounding; std::sin, std::cos, std::atan2, std::pow(x, 2) and std::pow(x, 3)
    are parameters.  Overflow and the sign of zero are not modelled.  No proofs
    here. *)
From Coq Require Import Reals.
From Verif Require Import Base BaseVec ModelDate ModelStrapdownFloat ModelFramesFloat ModelGravityFloat.
Open Scope R_scope.

(** Rotations.cpp 78-118.  M_PI is the rounded pi; std::fmod is exact. *)
Definition ecef2Lla_f (F : FloatOps) (pow2 pow3 : R -> R) (atan2_f : R -> R -> R) (rE : vec3)
  : outcome (bool * (R * R * R)) :=
  let r := frnd F in
  let x := vx rE in let y := vy rE in let z := vz rE in
  let a := gp_a_f in let b := gp_b_f F in let f := gp_f_f F in
  e0 <- sqrtc (r (1 - pow2 (r (1 - f)))) ;;
  let e := r e0 in
  q0 <- Rdivc (r (pow2 a - pow2 b)) (pow2 b) ;;
  ep0 <- sqrtc (r q0) ;;
  let ep := r ep0 in
  p0 <- sqrtc (r (pow2 x + pow2 y)) ;;
  let p := r p0 in
  let th := atan2_f (r (a * z)) (r (b * p)) in
  let lon0 := atan2_f y x in
  let latY := r (z + r (r (pow2 ep * b) * pow3 (fsin F th))) in
  let latX := r (p - r (r (pow2 e * a) * pow3 (fcos F th))) in
  let lat := atan2_f latY latX in
  s0 <- sqrtc (r (1 - r (pow2 e * pow2 (fsin F lat)))) ;;
  n0 <- Rdivc a (r s0) ;;
  let N := r n0 in
  q <- Rdivc p (fcos F lat) ;;
  let alt := r (r q - N) in
  lon1 <- fmodc lon0 (r (2 * r PI)) ;;
  let lon := if Rlt_dec (r PI) lon1 then r (lon1 - r (2 * r PI)) else lon1 in
  Ret (true, (lat, lon, alt)).

(** std::pow(x, 3) and std::atan2 correctly rounded. *)
Definition pow3_64 (x : R) : R := rnd64 (x * x * x).
Definition atan2_64 (y x : R) : R := rnd64 (atan2 y x).
