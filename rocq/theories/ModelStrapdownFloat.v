(** The attitude update of src/inertial/strapdown.cpp in rounded arithmetic.
    Every operation on doubles is followed by a rounding.  The rounding, the
    3-term inner product of Eigen (whose order of summation and use of fused
    operations depend on the build), std::sin and std::cos are parameters.
    Overflow to infinity is not modelled.  No proofs here. *)
From Coq Require Import Reals ZArith List.
From Flocq Require Import Core IEEE754.Binary IEEE754.Bits IEEE754.BinarySingleNaN.
From Verif Require Import Base BaseVec ModelNavUtils ModelDate.
Import ListNotations.
Open Scope R_scope.

(** The arithmetic in use: rounding of one operation, inner product of two
    3-vectors, sine and cosine. *)
Record FloatOps := FOps {
  frnd : R -> R; fdot : vec3 -> vec3 -> R; fsin : R -> R; fcos : R -> R }.

(** scalar * Matrix3d, Matrix3d + Matrix3d and Matrix3d * Matrix3d, as used on
    strapdown.cpp 99-104. *)
Definition mscale_f (F : FloatOps) (k : R) (A : mat3) : mat3 :=
  M3 (frnd F (k * m11 A)) (frnd F (k * m12 A)) (frnd F (k * m13 A))
     (frnd F (k * m21 A)) (frnd F (k * m22 A)) (frnd F (k * m23 A))
     (frnd F (k * m31 A)) (frnd F (k * m32 A)) (frnd F (k * m33 A)).
Definition madd_f (F : FloatOps) (A B : mat3) : mat3 :=
  M3 (frnd F (m11 A + m11 B)) (frnd F (m12 A + m12 B)) (frnd F (m13 A + m13 B))
     (frnd F (m21 A + m21 B)) (frnd F (m22 A + m22 B)) (frnd F (m23 A + m23 B))
     (frnd F (m31 A + m31 B)) (frnd F (m32 A + m32 B)) (frnd F (m33 A + m33 B)).
Definition mmul_f (F : FloatOps) (A B : mat3) : mat3 :=
  M3 (fdot F (row1 A) (col1 B)) (fdot F (row1 A) (col2 B)) (fdot F (row1 A) (col3 B))
     (fdot F (row2 A) (col1 B)) (fdot F (row2 A) (col2 B)) (fdot F (row2 A) (col3 B))
     (fdot F (row3 A) (col1 B)) (fdot F (row3 A) (col2 B)) (fdot F (row3 A) (col3 B)).

(** strapdown.cpp 88-109.  Vector3d::norm() is the square root of the inner
    product of the vector with itself. *)
Definition updateAttitude_f (F : FloatOps) (RB2NPrev : mat3) (dTh : vec3) : outcome (bool * mat3) :=
  r <- sqrtc (fdot F dTh dTh) ;;
  let dThMag := frnd F r in
  let '(ok, dThX) := skewSymmetric dTh in
  if negb ok then Ret (false, RB2NPrev)
  else
    s <- Rdivc (fsin F dThMag) dThMag ;;
    c <- Rdivc (frnd F (1 - fcos F dThMag)) (frnd F (dThMag * dThMag)) ;;
    let B1 := mscale_f F (frnd F s) dThX in
    let B2 := mmul_f F (mscale_f F (frnd F c) dThX) dThX in
    let B := madd_f F (madd_f F m3id B1) B2 in
    Ret (true, mmul_f F RB2NPrev B).

(** RB2N_ after a sequence of calls of updateAttitude (strapdown.cpp 48, 56). *)
Fixpoint attitude_f (F : FloatOps) (A : mat3) (l : list vec3) : outcome mat3 :=
  match l with
  | [] => Ret A
  | d :: l' => r <- updateAttitude_f F A d ;; attitude_f F (snd r) l'
  end.

(** Attitude.cpp 223-255 in the same arithmetic; negation is exact. *)
Definition euler2Dcm_f (F : FloatOps) (euler : vec3) : bool * mat3 :=
  let e1 := vx euler in let e2 := vy euler in let e3 := vz euler in
  let R3 := M3 (fcos F e3) (fsin F e3) 0 (- fsin F e3) (fcos F e3) 0 0 0 1 in
  let R2 := M3 (fcos F e2) 0 (- fsin F e2) 0 1 0 (fsin F e2) 0 (fcos F e2) in
  let R1 := M3 1 0 0 0 (fcos F e1) (fsin F e1) 0 (- fsin F e1) (fcos F e1) in
  (true, mmul_f F (mmul_f F R1 R2) R3).

(** IEEE-754 binary64, round to nearest even, sums from left to right, sine and
    cosine correctly rounded. *)
Definition binary64_ops : FloatOps :=
  FOps rnd64
    (fun a b => rnd64 (rnd64 (rnd64 (vx a * vx b) + rnd64 (vy a * vy b)) + rnd64 (vz a * vz b)))
    (fun x => rnd64 (sin x)) (fun x => rnd64 (cos x)).

(** Exact arithmetic: the reading used in ModelStrapdown.v. *)
Definition exact_ops : FloatOps := FOps (fun x => x) dot sin cos.

(** strapdown.cpp 53: [dt_ = (tov_ - tovPrev_) / 1e6;]  the difference of two
    int64_t (undefined on overflow), converted to double, divided in binary64. *)
Definition timeStep64 (t tPrev : Z) : outcome binary64 :=
  let d := (t - tPrev)%Z in
  if orb (Z.ltb d (- 2 ^ 63)) (Z.ltb (2 ^ 63 - 1) d) then Undef
  else Ret (b64_div mode_NE (doubleOfZ d) (doubleOfZ 1000000)).
