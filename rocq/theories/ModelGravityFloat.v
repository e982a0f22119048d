(** src/util/Gravity.cpp in rounded arithmetic: each operation is followed by a
    rounding, decimal literals are rounded; std::sin, std::cos and
    std::pow(x, 2) are parameters.  Overflow and contraction to fused
    operations are not modelled.  No proofs here. *)
From Coq Require Import Reals.
From Verif Require Import Base BaseVec ModelDate ModelStrapdownFloat ModelFramesFloat.
Open Scope R_scope.

(** include/util/Gravity.hpp 26-34; a is exact, see [gp_a_f] and [gp_f_f]. *)
Definition gp_b_f (F : FloatOps) : R := frnd F (63567523141 / 10000).
Definition gp_kM_f (F : FloatOps) : R := frnd F (frnd F (3986005 / 1000000) * 100000000000000).
Definition gp_wE_f (F : FloatOps) : R := frnd F (frnd F (7292115 / 1000000) * frnd F (1 / 100000)).
Definition gp_G_f (F : FloatOps) : R := frnd F (frnd F (6674 / 1000) * frnd F (1 / 100000000000)).
Definition gp_mE_f (F : FloatOps) : R := frnd F (frnd F (5972 / 1000) * frnd F 1000000000000000000000000).
Definition gp_gEq_f (F : FloatOps) : R := frnd F (97803267715 / 10000000000).
Definition gp_gPole_f (F : FloatOps) : R := frnd F (98321863685 / 10000000000).

(** Gravity.cpp 13-25.  [squaredNorm] is the inner product with itself;
    [normalized] divides by its square root. *)
Definition simpleGravity_f (F : FloatOps) (rA : vec3) : outcome (bool * vec3) :=
  let r := frnd F in
  let rSq := fdot F rA rA in
  k <- Rdivc (r (- gp_G_f F * gp_mE_f F)) rSq ;;
  n <- sqrtc rSq ;;
  x <- Rdivc (vx rA) (r n) ;;
  y <- Rdivc (vy rA) (r n) ;;
  z <- Rdivc (vz rA) (r n) ;;
  Ret (true, V3 (r (r k * r x)) (r (r k * r y)) (r (r k * r z))).

(** Gravity.cpp 28-59. *)
Definition gravityNed_f (F : FloatOps) (pow2 : R -> R) (lat h : R) : outcome (bool * vec3) :=
  let r := frnd F in
  let clat := fcos F lat in
  let slat := fsin F lat in
  let a := gp_a_f in
  let b := gp_b_f F in
  let f := gp_f_f F in
  m <- Rdivc (r (r (pow2 (gp_wE_f F) * pow2 a) * b)) (gp_kM_f F) ;;
  let num := r (r (r (a * gp_gEq_f F) * pow2 clat) + r (r (b * gp_gPole_f F) * pow2 slat)) in
  d <- sqrtc (r (r (pow2 a * pow2 clat) + r (pow2 b * pow2 slat))) ;;
  gEarthEll <- Rdivc num (r d) ;;
  q <- Rdivc (r (3 * pow2 h)) (pow2 a) ;;
  let gDown := r (r gEarthEll *
    r (r (1 - r (r (r (2 / a) * r (r (r (1 + f) + r m) - r (r (2 * f) * pow2 slat))) * h)) + r q)) in
  let gNorth := r (r (r (- (808 / 100)) * r (1 / 1000000)) * r (h / 1000)) in
  Ret (true, V3 (r (gNorth * fsin F (r (2 * lat)))) 0 gDown).
