(** Model of Initialization::coarseAttitudeAlignment (src/inertial/
    initialization.cpp).  No proofs here. *)
From Coq Require Import Reals.
From Verif Require Import Base BaseVec.
Open Scope R_scope.

(** initialization.cpp 15-44: the returned bool and RB2N.  Matrix3d::inverse is
    [minvc] (no finite value for determinant 0). *)
Definition coarseAttitudeAlignment (lat wE g : R) (aB wIB_B : vec3) : outcome (bool * mat3) :=
  let slat := sin lat in
  let clat := cos lat in
  let A := M3 0           0               (- g)
              (wE * clat) 0               (- wE * slat)
              0           (g * wE * clat) 0 in
  let r3 := vneg (cross aB wIB_B) in
  let B := M3 (vx aB)    (vy aB)    (vz aB)
              (vx wIB_B) (vy wIB_B) (vz wIB_B)
              (vx r3)    (vy r3)    (vz r3) in
  Ai <- minvc A ;;
  Ret (true, mmul Ai B).
