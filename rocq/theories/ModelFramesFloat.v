(** Rotations::lla2Ecef and the NED matrices in rounded arithmetic: each operation is followed by a
    rounding; std::sin, std::cos and std::pow(x, 2) are parameters.  Overflow is
    not modelled.  No proofs here. *)
From Coq Require Import Reals.
From Flocq Require Import IEEE754.Binary IEEE754.Bits.
From Verif Require Import Base BaseVec ModelGuardFloat ModelDate ModelStrapdownFloat.
Open Scope R_scope.

(** include/util/Gravity.hpp 26 and 35: a is exact, f is the quotient of 1 and
    the double nearest to the literal. *)
Definition gp_a_f : R := 6378137.
Definition gp_f_f (F : FloatOps) : R := frnd F (1 / frnd F (298257222101 / 1000000000)).

(** Rotations.cpp 121-153, for latitude and longitude that are not NaN (a NaN
    passes the guard and makes the result NaN).  [rE] is the old value of the
    output. *)
Definition lla2Ecef_f (F : FloatOps) (pow2 : R -> R) (lat64 lon64 : binary64) (alt : R) (rE : vec3)
  : outcome (bool * vec3) :=
  if negb (latLonGuard lat64 lon64) then Ret (false, rE)
  else
    let lat := B2R 53 1024 lat64 in let lon := B2R 53 1024 lon64 in
    let r := frnd F in
    let a := gp_a_f in let f := gp_f_f F in
    e0 <- sqrtc (r (1 - pow2 (r (1 - f)))) ;;
    let e := r e0 in
    s0 <- sqrtc (r (1 - r (pow2 e * pow2 (fsin F lat)))) ;;
    n0 <- Rdivc a (r s0) ;;
    let N := r n0 in
    Ret (true, V3 (r (r (r (N + alt) * fcos F lat) * fcos F lon))
                  (r (r (r (N + alt) * fcos F lat) * fsin F lon))
                  (r (r (r (r (1 - pow2 e) * N) + alt) * fsin F lat))).

(** Rotations.cpp 14-43.  [RE2N] is the old value of the output; negation is
    exact. *)
Definition computeREcef2Ned_f (F : FloatOps) (lat64 lon64 : binary64) (RE2N : mat3) : bool * mat3 :=
  if negb (latLonGuard lat64 lon64) then (false, RE2N)
  else
    let lat := B2R 53 1024 lat64 in let lon := B2R 53 1024 lon64 in
    let r := frnd F in
    let slat := fsin F lat in let clat := fcos F lat in
    let slon := fsin F lon in let clon := fcos F lon in
    (true, M3 (r (- slat * clon)) (r (- slat * slon)) clat
              (- slon) clon 0
              (r (- clat * clon)) (r (- clat * slon)) (- slat)).

(** Rotations.cpp 46-75. *)
Definition computeRNed2Ecef_f (F : FloatOps) (lat64 lon64 : binary64) (RN2E : mat3) : bool * mat3 :=
  if negb (latLonGuard lat64 lon64) then (false, RN2E)
  else
    let lat := B2R 53 1024 lat64 in let lon := B2R 53 1024 lon64 in
    let r := frnd F in
    let slat := fsin F lat in let clat := fcos F lat in
    let slon := fsin F lon in let clon := fcos F lon in
    (true, M3 (r (- slat * clon)) (- slon) (r (- clat * clon))
              (r (- slat * slon)) clon (r (- clat * slon))
              clat 0 (- slat)).

(** std::pow(x, 2) correctly rounded. *)
Definition pow2_64 (x : R) : R := rnd64 (x * x).
