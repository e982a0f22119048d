(** Initialization::coarseAttitudeAlignment in rounded arithmetic: each operation
    is followed by a rounding, negation is exact; inner products, std::sin and
    std::cos are parameters.  Overflow is not modelled.  No proofs here. *)
From Coq Require Import Reals.
From Verif Require Import Base BaseVec ModelStrapdownFloat.
Open Scope R_scope.

(** Matrix3d::inverse() of Eigen, used on initialization.cpp 39: the cofactors,
    the determinant as the inner product of the first column with its
    cofactors, and the cofactors times 1/det. *)
Definition minvc_f (F : FloatOps) (A : mat3) : outcome mat3 :=
  let r := frnd F in
  let cof a b c d := r (r (a * b) - r (c * d)) in
  let c00 := cof (m22 A) (m33 A) (m23 A) (m32 A) in
  let c10 := cof (m32 A) (m13 A) (m33 A) (m12 A) in
  let c20 := cof (m12 A) (m23 A) (m13 A) (m22 A) in
  let c01 := cof (m23 A) (m31 A) (m21 A) (m33 A) in
  let c11 := cof (m33 A) (m11 A) (m31 A) (m13 A) in
  let c21 := cof (m13 A) (m21 A) (m11 A) (m23 A) in
  let c02 := cof (m21 A) (m32 A) (m22 A) (m31 A) in
  let c12 := cof (m31 A) (m12 A) (m32 A) (m11 A) in
  let c22 := cof (m11 A) (m22 A) (m12 A) (m21 A) in
  i0 <- Rdivc 1 (fdot F (V3 c00 c10 c20) (col1 A)) ;;
  let i := r i0 in
  Ret (M3 (r (c00 * i)) (r (c10 * i)) (r (c20 * i))
          (r (c01 * i)) (r (c11 * i)) (r (c21 * i))
          (r (c02 * i)) (r (c12 * i)) (r (c22 * i))).

(** initialization.cpp 15-44: the returned bool and RB2N. *)
Definition coarseAttitudeAlignment_f (F : FloatOps) (lat wE g : R) (aB wIB_B : vec3) : outcome (bool * mat3) :=
  let r := frnd F in
  let slat := fsin F lat in
  let clat := fcos F lat in
  let A := M3 0               0                       (- g)
              (r (wE * clat)) 0                       (r (- wE * slat))
              0               (r (r (g * wE) * clat)) 0 in
  let x3 a b c d := - r (r (a * b) - r (c * d)) in
  let B := M3 (vx aB)    (vy aB)    (vz aB)
              (vx wIB_B) (vy wIB_B) (vz wIB_B)
              (x3 (vy aB) (vz wIB_B) (vz aB) (vy wIB_B))
              (x3 (vz aB) (vx wIB_B) (vx aB) (vz wIB_B))
              (x3 (vx aB) (vy wIB_B) (vy aB) (vx wIB_B)) in
  Ai <- minvc_f F A ;;
  Ret (true, mmul_f F Ai B).
