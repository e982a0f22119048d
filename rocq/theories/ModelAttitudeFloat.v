(** The quaternion conversions of src/util/Attitude.cpp in rounded arithmetic:
    every operation on doubles is followed by a rounding, negation and the
    comparisons are exact.  std::pow(x, 2), std::sin, std::cos and std::asin are
    parameters.  Overflow to infinity is not modelled.  No proofs here. *)
From Coq Require Import Reals List.
From Flocq Require Import Core.
From Verif Require Import Base BaseVec ModelDate ModelStrapdownFloat.
Import ListNotations.
Open Scope R_scope.

(** Attitude.cpp 29-52. *)
Definition dcm_entries_f (F : FloatOps) (q0 q1 q2 q3 : R) : outcome mat3 :=
  let r := frnd F in
  let add x y := r (x + y) in
  let sub x y := r (x - y) in
  let mul x y := r (x * y) in
  let div x y := (d <- Rdivc x y ;; Ret (r d)) in
  let den := add (add (add (mul q0 q0) (mul q1 q1)) (mul q2 q2)) (mul q3 q3) in
  R11 <- div (sub (sub (add (mul q0 q0) (mul q1 q1)) (mul q2 q2)) (mul q3 q3)) den ;;
  R12 <- div (mul 2 (add (mul q1 q2) (mul q0 q3))) den ;;
  R13 <- div (mul 2 (sub (mul q1 q3) (mul q0 q2))) den ;;
  R21 <- div (mul 2 (sub (mul q1 q2) (mul q0 q3))) den ;;
  R22 <- div (sub (add (sub (mul q0 q0) (mul q1 q1)) (mul q2 q2)) (mul q3 q3)) den ;;
  R23 <- div (mul 2 (add (mul q2 q3) (mul q0 q1))) den ;;
  R31 <- div (mul 2 (add (mul q1 q3) (mul q0 q2))) den ;;
  R32 <- div (mul 2 (sub (mul q2 q3) (mul q0 q1))) den ;;
  R33 <- div (add (sub (sub (mul q0 q0) (mul q1 q1)) (mul q2 q2)) (mul q3 q3)) den ;;
  Ret (M3 R11 R12 R13 R21 R22 R23 R31 R32 R33).

(** Attitude.cpp 15-57. *)
Definition computeDcmFromQuaternion_f (F : FloatOps) (qA2B : VectorXd) (RA2B : MatrixXd)
  : outcome (bool * MatrixXd) :=
  match qA2B with
  | [q0; q1; q2; q3] =>
      if andb (Nat.eqb (mx_rows RA2B) 3) (Nat.eqb (mx_cols RA2B) 3) then
        R <- dcm_entries_f F q0 q1 q2 q3 ;; Ret (true, MX_of_mat3 R)
      else Ret (false, RA2B)
  | _ => Ret (false, RA2B)
  end.

(** Attitude.cpp 85-108. *)
Definition quat_of_dcm_f (F : FloatOps) (pow2 : R -> R) (R : mat3) : outcome VectorXd :=
  let r := frnd F in
  let add x y := r (x + y) in
  let sub x y := r (x - y) in
  let mul x y := r (x * y) in
  let qSq0 := mul 0.25 (add (add (add 1 (m11 R)) (m22 R)) (m33 R)) in
  let qSq1 := mul 0.25 (sub (sub (add 1 (m11 R)) (m22 R)) (m33 R)) in
  let qSq2 := mul 0.25 (sub (add (sub 1 (m11 R)) (m22 R)) (m33 R)) in
  let qSq3 := mul 0.25 (add (sub (sub 1 (m11 R)) (m22 R)) (m33 R)) in
  if andb (andb (Rltb' qSq1 qSq0) (Rltb' qSq2 qSq0)) (Rltb' qSq3 qSq0) then
    q0 <- sqrtc qSq0 ;; k <- Rdivc 1 (mul 4 (r q0)) ;;
    Ret [mul (mul 4 (pow2 (r q0))) (r k); mul (sub (m23 R) (m32 R)) (r k);
         mul (sub (m31 R) (m13 R)) (r k); mul (sub (m12 R) (m21 R)) (r k)]
  else if andb (andb (Rltb' qSq0 qSq1) (Rltb' qSq2 qSq1)) (Rltb' qSq3 qSq1) then
    q1 <- sqrtc qSq1 ;; k <- Rdivc 1 (mul 4 (r q1)) ;;
    Ret [mul (sub (m23 R) (m32 R)) (r k); mul (mul 4 (pow2 (r q1))) (r k);
         mul (add (m12 R) (m21 R)) (r k); mul (add (m31 R) (m13 R)) (r k)]
  else if andb (andb (Rltb' qSq0 qSq2) (Rltb' qSq1 qSq2)) (Rltb' qSq3 qSq2) then
    q2 <- sqrtc qSq2 ;; k <- Rdivc 1 (mul 4 (r q2)) ;;
    Ret [mul (sub (m31 R) (m13 R)) (r k); mul (add (m12 R) (m21 R)) (r k);
         mul (mul 4 (pow2 (r q2))) (r k); mul (add (m23 R) (m32 R)) (r k)]
  else
    q3 <- sqrtc qSq3 ;; k <- Rdivc 1 (mul 4 (r q3)) ;;
    Ret [mul (sub (m12 R) (m21 R)) (r k); mul (add (m31 R) (m13 R)) (r k);
         mul (add (m23 R) (m32 R)) (r k); mul (mul 4 (pow2 (r q3))) (r k)].

(** Attitude.cpp 60-113. *)
Definition computeQuaternionFromDcm_f (F : FloatOps) (pow2 : R -> R) (RA2B : MatrixXd) (qA2B : VectorXd)
  : outcome (bool * VectorXd) :=
  if Nat.eqb (length qA2B) 4 then
    if andb (Nat.eqb (mx_rows RA2B) 3) (Nat.eqb (mx_cols RA2B) 3) then
      q <- quat_of_dcm_f F pow2 (mat3_of_MX RA2B) ;; Ret (true, q)
    else Ret (false, qA2B)
  else Ret (false, qA2B).

(** Attitude.cpp 130-135. *)
Definition quat_of_rotvec_f (F : FloatOps) (p0 p1 p2 : R) : outcome VectorXd :=
  let r := frnd F in
  m <- sqrtc (r (r (r (p0 * p0) + r (p1 * p1)) + r (p2 * p2))) ;;
  let phiMag := r m in
  k <- Rdivc 1 phiMag ;;
  let ks := r (r k * fsin F (r (phiMag / 2))) in
  Ret [fcos F (r (phiMag / 2)); r (ks * p0); r (ks * p1); r (ks * p2)].

(** Attitude.cpp 116-146. *)
Definition computeQuaternionFromRotationVec_f (F : FloatOps) (phi qA2B : VectorXd)
  : outcome (bool * VectorXd) :=
  match phi with
  | [p0; p1; p2] =>
      if Nat.eqb (length qA2B) 4 then
        q <- quat_of_rotvec_f F p0 p1 p2 ;; Ret (true, q)
      else Ret (false, qA2B)
  | _ => Ret (false, qA2B)
  end.

(** std::asin: NaN outside [-1, 1], [fasin] inside. *)
Definition asinc_f (fasin : R -> R) (x : R) : outcome R :=
  if Rlt_dec x (-1) then NonFinite
  else if Rlt_dec 1 x then NonFinite else Ret (fasin x).

(** Attitude.cpp 163-183.  The literal 1.0e-6 is itself rounded. *)
Definition rotvec_of_quat_f (F : FloatOps) (fasin : R -> R) (q0 q1 q2 q3 : R) : outcome VectorXd :=
  let r := frnd F in
  let quatVec := if Rlt_dec q0 0 then V3 (- q1) (- q2) (- q3) else V3 q1 q2 q3 in
  l <- sqrtc (fdot F quatVec quatVec) ;;
  let length := r l in
  if Rlt_dec (r (1 / 1000000)) length then
    a0 <- Rdivc (vx quatVec) length ;;
    a1 <- Rdivc (vy quatVec) length ;;
    a2 <- Rdivc (vz quatVec) length ;;
    s <- asinc_f fasin length ;;
    let angle := r (-2 * s) in
    Ret [r (angle * r a0); r (angle * r a1); r (angle * r a2)]
  else Ret [0; 0; 0].

(** Attitude.cpp 149-188. *)
Definition computeRotationVecFromQuaternion_f (F : FloatOps) (fasin : R -> R) (qA2B phi : VectorXd)
  : outcome (bool * VectorXd) :=
  if Nat.eqb (length phi) 3 then
    match qA2B with
    | [q0; q1; q2; q3] => r <- rotvec_of_quat_f F fasin q0 q1 q2 q3 ;; Ret (true, r)
    | _ => Ret (false, phi)
    end
  else Ret (false, phi).
