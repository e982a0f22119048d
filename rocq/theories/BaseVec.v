(** Eigen::Vector3d, Eigen::Matrix3d and the Eigen operators the code uses on
    them, entry by entry.  No proofs here. *)
From Coq Require Import Reals List.
From Verif Require Import Base.
Import ListNotations.
Open Scope R_scope.

Record vec3 := V3 { vx : R; vy : R; vz : R }.
Record mat3 := M3 {
  m11 : R; m12 : R; m13 : R;
  m21 : R; m22 : R; m23 : R;
  m31 : R; m32 : R; m33 : R }.

Definition v3zero : vec3 := V3 0 0 0.
Definition vadd (u v : vec3) : vec3 := V3 (vx u + vx v) (vy u + vy v) (vz u + vz v).
Definition vsub (u v : vec3) : vec3 := V3 (vx u - vx v) (vy u - vy v) (vz u - vz v).
Definition vneg (u : vec3) : vec3 := V3 (- vx u) (- vy u) (- vz u).
Definition vscale (k : R) (u : vec3) : vec3 := V3 (k * vx u) (k * vy u) (k * vz u).
Definition dot (u v : vec3) : R := vx u * vx v + vy u * vy v + vz u * vz v.
Definition cross (u v : vec3) : vec3 :=
  V3 (vy u * vz v - vz u * vy v)
     (vz u * vx v - vx u * vz v)
     (vx u * vy v - vy u * vx v).
Definition norm (u : vec3) : R := sqrt (dot u u).

Definition m3id : mat3 := M3 1 0 0 0 1 0 0 0 1.
Definition m3zero : mat3 := M3 0 0 0 0 0 0 0 0 0.
Definition mtr (A : mat3) : mat3 :=
  M3 (m11 A) (m21 A) (m31 A) (m12 A) (m22 A) (m32 A) (m13 A) (m23 A) (m33 A).
Definition madd (A B : mat3) : mat3 :=
  M3 (m11 A + m11 B) (m12 A + m12 B) (m13 A + m13 B)
     (m21 A + m21 B) (m22 A + m22 B) (m23 A + m23 B)
     (m31 A + m31 B) (m32 A + m32 B) (m33 A + m33 B).
Definition msub (A B : mat3) : mat3 :=
  M3 (m11 A - m11 B) (m12 A - m12 B) (m13 A - m13 B)
     (m21 A - m21 B) (m22 A - m22 B) (m23 A - m23 B)
     (m31 A - m31 B) (m32 A - m32 B) (m33 A - m33 B).
Definition mneg (A : mat3) : mat3 :=
  M3 (- m11 A) (- m12 A) (- m13 A) (- m21 A) (- m22 A) (- m23 A)
     (- m31 A) (- m32 A) (- m33 A).
Definition mscale (k : R) (A : mat3) : mat3 :=
  M3 (k * m11 A) (k * m12 A) (k * m13 A)
     (k * m21 A) (k * m22 A) (k * m23 A)
     (k * m31 A) (k * m32 A) (k * m33 A).
Definition mmul (A B : mat3) : mat3 :=
  M3 (m11 A * m11 B + m12 A * m21 B + m13 A * m31 B)
     (m11 A * m12 B + m12 A * m22 B + m13 A * m32 B)
     (m11 A * m13 B + m12 A * m23 B + m13 A * m33 B)
     (m21 A * m11 B + m22 A * m21 B + m23 A * m31 B)
     (m21 A * m12 B + m22 A * m22 B + m23 A * m32 B)
     (m21 A * m13 B + m22 A * m23 B + m23 A * m33 B)
     (m31 A * m11 B + m32 A * m21 B + m33 A * m31 B)
     (m31 A * m12 B + m32 A * m22 B + m33 A * m32 B)
     (m31 A * m13 B + m32 A * m23 B + m33 A * m33 B).
Definition mvmul (A : mat3) (v : vec3) : vec3 :=
  V3 (m11 A * vx v + m12 A * vy v + m13 A * vz v)
     (m21 A * vx v + m22 A * vy v + m23 A * vz v)
     (m31 A * vx v + m32 A * vy v + m33 A * vz v).
Definition mdet (A : mat3) : R :=
  m11 A * (m22 A * m33 A - m23 A * m32 A)
  - m12 A * (m21 A * m33 A - m23 A * m31 A)
  + m13 A * (m21 A * m32 A - m22 A * m31 A).
Definition madj (A : mat3) : mat3 :=
  M3 (m22 A * m33 A - m23 A * m32 A) (m13 A * m32 A - m12 A * m33 A) (m12 A * m23 A - m13 A * m22 A)
     (m23 A * m31 A - m21 A * m33 A) (m11 A * m33 A - m13 A * m31 A) (m13 A * m21 A - m11 A * m23 A)
     (m21 A * m32 A - m22 A * m31 A) (m12 A * m31 A - m11 A * m32 A) (m11 A * m22 A - m12 A * m21 A).
(** Matrix3d::inverse(): cofactors times 1/det. *)
Definition minvc (A : mat3) : outcome mat3 :=
  r <- Rdivc 1 (mdet A) ;; Ret (mscale r (madj A)).

Definition row1 (A : mat3) : vec3 := V3 (m11 A) (m12 A) (m13 A).
Definition row2 (A : mat3) : vec3 := V3 (m21 A) (m22 A) (m23 A).
Definition row3 (A : mat3) : vec3 := V3 (m31 A) (m32 A) (m33 A).
Definition col1 (A : mat3) : vec3 := V3 (m11 A) (m21 A) (m31 A).
Definition col2 (A : mat3) : vec3 := V3 (m12 A) (m22 A) (m32 A).
Definition col3 (A : mat3) : vec3 := V3 (m13 A) (m23 A) (m33 A).

(** A 3x3 MatrixXd with the entries of a [mat3] (comma initialiser). *)
Definition MX_of_mat3 (A : mat3) : MatrixXd :=
  MX 3 3 (fun i j => match i, j with
    | 0, 0 => m11 A | 0, 1 => m12 A | 0, 2 => m13 A
    | 1, 0 => m21 A | 1, 1 => m22 A | 1, 2 => m23 A
    | 2, 0 => m31 A | 2, 1 => m32 A | 2, 2 => m33 A
    | _, _ => R0 end)%nat.
(** The nine leading entries of a MatrixXd known to be 3x3. *)
Definition mat3_of_MX (A : MatrixXd) : mat3 :=
  M3 (mx_at A 0 0) (mx_at A 0 1) (mx_at A 0 2)
     (mx_at A 1 0) (mx_at A 1 1) (mx_at A 1 2)
     (mx_at A 2 0) (mx_at A 2 1) (mx_at A 2 2).
