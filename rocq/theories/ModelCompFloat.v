(** Compensator::compensateMeasurement in rounded arithmetic: one rounding after
    the subtraction of the bias, the two products by Eigen's inner products.
    Overflow to infinity is not modelled.  No proofs here. *)
From Coq Require Import Reals List String.
From Verif Require Import Base BaseVec ModelCompensator ModelStrapdownFloat.
Import ListNotations.
Open Scope R_scope.

(** compensator.cpp 133-167. *)
Definition compensateMeasurement_f (F : FloatOps) (c : Compensator) (meas : vec3) (measType : string) : outcome (bool * vec3) :=
  let e := if String.eqb measType "accel" then accel c
           else if String.eqb measType "gyro" then gyro c else Err None [] None in
  b <- value (e_b e) ;;
  let m := e_m e in
  sf <- value (e_sf e) ;;
  let SF := M3 (vx sf) 0 0  0 (vy sf) 0  0 0 (vz sf) in
  m0 <- elem m 0 ;; m1 <- elem m 1 ;; m2 <- elem m 2 ;; m3 <- elem m 3 ;; m4 <- elem m 4 ;; m5 <- elem m 5 ;;
  let MIS := M3 1 m0 m1  m2 1 m3  m4 m5 1 in
  let A := mmul_f F SF MIS in
  let d := V3 (frnd F (vx meas - vx b)) (frnd F (vy meas - vy b)) (frnd F (vz meas - vz b)) in
  Ret (true, V3 (fdot F (row1 A) d) (fdot F (row2 A) d) (fdot F (row3 A) d)).
