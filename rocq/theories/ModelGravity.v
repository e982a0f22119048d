(** Model of src/util/Gravity.cpp and the constants of include/util/Gravity.hpp.
    Decimal literals stand for their exact decimal values. *)
From Coq Require Import Reals List.
From Verif Require Import Base BaseVec.
Open Scope R_scope.

(** include/util/Gravity.hpp 25-36 (J2 is never read). *)
Definition gp_a : R := 6378137.
Definition gp_b : R := 63567523141 / 10000.
Definition gp_kM : R := 3986005 / 1000000 * 100000000000000.
Definition gp_wE : R := 7292115 / 1000000 * (1 / 100000).
Definition gp_G : R := 6674 / 1000 * (1 / 100000000000).
Definition gp_mE : R := 5972 / 1000 * 1000000000000000000000000.
Definition gp_gEq : R := 97803267715 / 10000000000.
Definition gp_gPole : R := 98321863685 / 10000000000.
Definition gp_f : R := 1 / (298257222101 / 1000000000).

(** Gravity.cpp 13-25.  [rA.normalized()] divides by the norm; Eigen returns the
    vector itself when the norm is 0, but then the first division by
    [rSq = 0] has already produced -inf and the product is NaN. *)
Definition simpleGravity (rA : vec3) : outcome (bool * vec3) :=
  let rSq := dot rA rA in
  k <- Rdivc (- gp_G * gp_mE) rSq ;;
  x <- Rdivc (vx rA) (norm rA) ;;
  y <- Rdivc (vy rA) (norm rA) ;;
  z <- Rdivc (vz rA) (norm rA) ;;
  Ret (true, vscale k (V3 x y z)).

(** Gravity.cpp 28-59.  Divisions by the non-zero constants a, kM and 1000 are
    plain real divisions; [std::pow(x,2)] is [x * x]. *)
Definition gravityNed (lat h : R) : outcome (bool * vec3) :=
  let clat := cos lat in
  let slat := sin lat in
  let a := gp_a in
  let b := gp_b in
  let f := gp_f in
  let m := (gp_wE * gp_wE) * (a * a) * b / gp_kM in
  let num := (a * gp_gEq * (clat * clat)) + (b * gp_gPole * (slat * slat)) in
  den <- sqrtc (((a * a) * (clat * clat)) + ((b * b) * (slat * slat))) ;;
  gEarthEll <- Rdivc num den ;;
  let gDown := gEarthEll * (1 - ((2/a)*(1+f+m-(2*f*(slat * slat)))*h) + (3*(h * h)/(a * a))) in
  let gNorth := - (808 / 100) * (1 / 1000000) * (h / 1000) * sin (2 * lat) in
  Ret (true, V3 gNorth 0 gDown).
