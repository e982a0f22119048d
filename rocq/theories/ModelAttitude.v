(** Model of src/util/Attitude.cpp.  Doubles are exact reals; every division,
    square root and arcsine is checked ([NonFinite] when C++ yields inf/NaN).
    The [std::cout] diagnostics are not modelled. *)
From Coq Require Import Reals List.
From Verif Require Import Base BaseVec.
Import ListNotations.
Open Scope R_scope.

(** Attitude.cpp 29-52: the nine entries computed from q0..q3. *)
Definition dcm_entries (q0 q1 q2 q3 : R) : outcome mat3 :=
  let den := (q0 * q0) + (q1 * q1) + (q2 * q2) + (q3 * q3) in
  R11 <- Rdivc ((q0 * q0) + (q1 * q1) - (q2 * q2) - (q3 * q3)) den ;;
  R12 <- Rdivc (2 * ((q1 * q2) + (q0 * q3))) den ;;
  R13 <- Rdivc (2 * ((q1 * q3) - (q0 * q2))) den ;;
  R21 <- Rdivc (2 * ((q1 * q2) - (q0 * q3))) den ;;
  R22 <- Rdivc ((q0 * q0) - (q1 * q1) + (q2 * q2) - (q3 * q3)) den ;;
  R23 <- Rdivc (2 * ((q2 * q3) + (q0 * q1))) den ;;
  R31 <- Rdivc (2 * ((q1 * q3) + (q0 * q2))) den ;;
  R32 <- Rdivc (2 * ((q2 * q3) - (q0 * q1))) den ;;
  R33 <- Rdivc ((q0 * q0) - (q1 * q1) - (q2 * q2) + (q3 * q3)) den ;;
  Ret (M3 R11 R12 R13 R21 R22 R23 R31 R32 R33).

(** Attitude.cpp 15-57.  [qA2B] input, [RA2B] old value of the output. *)
Definition computeDcmFromQuaternion (qA2B : VectorXd) (RA2B : MatrixXd)
  : outcome (bool * MatrixXd) :=
  match qA2B with
  | [q0; q1; q2; q3] =>
      if andb (Nat.eqb (mx_rows RA2B) 3) (Nat.eqb (mx_cols RA2B) 3) then
        R <- dcm_entries q0 q1 q2 q3 ;; Ret (true, MX_of_mat3 R)
      else Ret (false, RA2B)
  | _ => Ret (false, RA2B)
  end.

(** Attitude.cpp 85-108: branch selection and the returned four components.
    [std::pow(x,2)] is [x * x]; [qA2B *= (1.0/(4.0*q))] scales by the quotient. *)
Definition quat_of_dcm (R : mat3) : outcome VectorXd :=
  let qSq0 := 0.25 * (1 + m11 R + m22 R + m33 R) in
  let qSq1 := 0.25 * (1 + m11 R - m22 R - m33 R) in
  let qSq2 := 0.25 * (1 - m11 R + m22 R - m33 R) in
  let qSq3 := 0.25 * (1 - m11 R - m22 R + m33 R) in
  if andb (andb (Rltb' qSq1 qSq0) (Rltb' qSq2 qSq0)) (Rltb' qSq3 qSq0) then
    q0 <- sqrtc qSq0 ;; k <- Rdivc 1 (4 * q0) ;;
    Ret [4 * (q0 * q0) * k; (m23 R - m32 R) * k; (m31 R - m13 R) * k; (m12 R - m21 R) * k]
  else if andb (andb (Rltb' qSq0 qSq1) (Rltb' qSq2 qSq1)) (Rltb' qSq3 qSq1) then
    q1 <- sqrtc qSq1 ;; k <- Rdivc 1 (4 * q1) ;;
    Ret [(m23 R - m32 R) * k; 4 * (q1 * q1) * k; (m12 R + m21 R) * k; (m31 R + m13 R) * k]
  else if andb (andb (Rltb' qSq0 qSq2) (Rltb' qSq1 qSq2)) (Rltb' qSq3 qSq2) then
    q2 <- sqrtc qSq2 ;; k <- Rdivc 1 (4 * q2) ;;
    Ret [(m31 R - m13 R) * k; (m12 R + m21 R) * k; 4 * (q2 * q2) * k; (m23 R + m32 R) * k]
  else
    q3 <- sqrtc qSq3 ;; k <- Rdivc 1 (4 * q3) ;;
    Ret [(m12 R - m21 R) * k; (m31 R + m13 R) * k; (m23 R + m32 R) * k; 4 * (q3 * q3) * k].

(** Attitude.cpp 60-113. *)
Definition computeQuaternionFromDcm (RA2B : MatrixXd) (qA2B : VectorXd)
  : outcome (bool * VectorXd) :=
  if Nat.eqb (length qA2B) 4 then
    if andb (Nat.eqb (mx_rows RA2B) 3) (Nat.eqb (mx_cols RA2B) 3) then
      q <- quat_of_dcm (mat3_of_MX RA2B) ;; Ret (true, q)
    else Ret (false, qA2B)
  else Ret (false, qA2B).

(** Attitude.cpp 130-135. *)
Definition quat_of_rotvec (p0 p1 p2 : R) : outcome VectorXd :=
  phiMag <- sqrtc ((p0 * p0) + (p1 * p1) + (p2 * p2)) ;;
  k <- Rdivc 1 phiMag ;;
  Ret [cos (phiMag / 2); k * sin (phiMag / 2) * p0; k * sin (phiMag / 2) * p1;
       k * sin (phiMag / 2) * p2].

(** Attitude.cpp 116-146. *)
Definition computeQuaternionFromRotationVec (phi qA2B : VectorXd)
  : outcome (bool * VectorXd) :=
  match phi with
  | [p0; p1; p2] =>
      if Nat.eqb (length qA2B) 4 then
        q <- quat_of_rotvec p0 p1 p2 ;; Ret (true, q)
      else Ret (false, qA2B)
  | _ => Ret (false, qA2B)
  end.

(** Attitude.cpp 163-183. [quatVec.norm()] is the square root of a sum of
    squares, hence unchecked. *)
Definition rotvec_of_quat (q0 q1 q2 q3 : R) : outcome VectorXd :=
  let quatVec := if Rlt_dec q0 0 then V3 (q1 * -1) (q2 * -1) (q3 * -1) else V3 q1 q2 q3 in
  let length := norm quatVec in
  if Rlt_dec (1 / 1000000) length then
    a0 <- Rdivc (vx quatVec) length ;;
    a1 <- Rdivc (vy quatVec) length ;;
    a2 <- Rdivc (vz quatVec) length ;;
    s <- asinc length ;;
    let angle := -2 * s in
    Ret [angle * a0; angle * a1; angle * a2]
  else Ret [0 * 1; 0 * 0; 0 * 0].

(** Attitude.cpp 149-188.  (The size check of phi comes first; both checks have
    the same effect, so their order is not observable in the model.) *)
Definition computeRotationVecFromQuaternion (qA2B phi : VectorXd)
  : outcome (bool * VectorXd) :=
  if Nat.eqb (length phi) 3 then
    match qA2B with
    | [q0; q1; q2; q3] => r <- rotvec_of_quat q0 q1 q2 q3 ;; Ret (true, r)
    | _ => Ret (false, phi)
    end
  else Ret (false, phi).

(** Attitude.cpp 212-215. *)
Definition quat_equiv (q0 q1 q2 q3 : R) : MatrixXd :=
  MX 4 4 (fun i j => match i, j with
    | 0, 0 => q0 | 0, 1 => Ropp q1 | 0, 2 => Ropp q2 | 0, 3 => Ropp q3
    | 1, 0 => q1 | 1, 1 =>   q0 | 1, 2 => Ropp q3 | 1, 3 =>   q2
    | 2, 0 => q2 | 2, 1 =>   q3 | 2, 2 =>   q0 | 2, 3 => Ropp q1
    | 3, 0 => q3 | 3, 1 => Ropp q2 | 3, 2 =>   q1 | 3, 3 =>   q0
    | _, _ => R0 end)%nat.

(** Attitude.cpp 191-220. *)
Definition buildQuaternionEquivalent (qA2B : VectorXd) (QA2B : MatrixXd)
  : outcome (bool * MatrixXd) :=
  match qA2B with
  | [q0; q1; q2; q3] =>
      if andb (Nat.eqb (mx_rows QA2B) 4) (Nat.eqb (mx_cols QA2B) 4) then
        Ret (true, quat_equiv q0 q1 q2 q3)
      else Ret (false, QA2B)
  | _ => Ret (false, QA2B)
  end.

(** Attitude.cpp 223-255.  Always returns true. *)
Definition euler_R3 (e3 : R) : mat3 :=
  M3 (cos e3) (sin e3) 0 (- sin e3) (cos e3) 0 0 0 1.
Definition euler_R2 (e2 : R) : mat3 :=
  M3 (cos e2) 0 (- sin e2) 0 1 0 (sin e2) 0 (cos e2).
Definition euler_R1 (e1 : R) : mat3 :=
  M3 1 0 0 0 (cos e1) (sin e1) 0 (- sin e1) (cos e1).
Definition euler2Dcm (euler : vec3) : bool * mat3 :=
  (true, mmul (mmul (euler_R1 (vx euler)) (euler_R2 (vy euler))) (euler_R3 (vz euler))).

(** Attitude.cpp 258-295.  [euler] is the old value of the output. *)
Definition dcm2Euler (RB2N : mat3) (euler : vec3) : outcome (bool * vec3) :=
  if orb (Rltb' (Rabs (m11 RB2N)) (1 / 1000000000)) (Rltb' (Rabs (m33 RB2N)) (1 / 1000000000))
  then Ret (false, euler)
  else if orb (Rltb' 1 (m13 RB2N)) (Rltb' (m13 RB2N) (-1))
  then Ret (false, euler)
  else
    t1 <- Rdivc (m23 RB2N) (m33 RB2N) ;;
    s <- asinc (m13 RB2N) ;;
    t3 <- Rdivc (m12 RB2N) (m11 RB2N) ;;
    let e3 := atan t3 in
    let e3' := if Rlt_dec e3 0 then e3 + PI else e3 in
    Ret (true, V3 (atan t1) (- s) e3').
