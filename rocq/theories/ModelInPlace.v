(** The two position conversions of src/util/Rotations.cpp on a memory of
    doubles.  Every argument is a reference, so it is the address of a cell; the
    three cells of an Eigen::Vector3d are consecutive.  Several arguments may be
    the same cell, as in lla2Ecef(v[0], v[1], v[2], v).  No proofs here. *)
From Coq Require Import Reals Arith.
From Verif Require Import Base BaseVec ModelGravity.
Open Scope R_scope.

Definition memory := nat -> R.
Definition put (m : memory) (a : nat) (v : R) : memory := fun b => if Nat.eqb b a then v else m b.

(** Rotations.cpp 78-118; the assignments in the order of the source. *)
Definition ecef2Lla_at (rE lat lon alt : nat) (m : memory) : outcome (bool * memory) :=
  let x := m rE in let y := m (rE + 1)%nat in let z := m (rE + 2)%nat in
  let a := gp_a in let b := gp_b in let f := gp_f in
  e <- sqrtc (1 - (1 - f) * (1 - f)) ;;
  ep <- sqrtc ((a * a - b * b) / (b * b)) ;;
  p <- sqrtc (x * x + y * y) ;;
  let th := atan2 (a * z) (b * p) in
  let m := put m lon (atan2 y x) in
  let latY := z + ((ep * ep) * b * (sin th * sin th * sin th)) in
  let latX := p - ((e * e) * a * (cos th * cos th * cos th)) in
  let m := put m lat (atan2 latY latX) in
  s <- sqrtc (1 - ((e * e) * (sin (m lat) * sin (m lat)))) ;;
  N <- Rdivc a s ;;
  q <- Rdivc p (cos (m lat)) ;;
  let m := put m alt (q - N) in
  l <- fmodc (m lon) (2 * PI) ;;
  let m := put m lon l in
  let m := if Rlt_dec PI (m lon) then put m lon (m lon - 2 * PI) else m in
  Ret (true, m).

(** Rotations.cpp 121-153; the assignments in the order of the source. *)
Definition lla2Ecef_at (lat lon alt rE : nat) (m : memory) : outcome (bool * memory) :=
  if Rlt_dec (PI / 2) (Rabs (m lat)) then Ret (false, m)
  else if Rlt_dec PI (Rabs (m lon)) then Ret (false, m)
  else
    let a := gp_a in let f := gp_f in
    e <- sqrtc (1 - (1 - f) * (1 - f)) ;;
    s <- sqrtc (1 - ((e * e) * (sin (m lat) * sin (m lat)))) ;;
    N <- Rdivc a s ;;
    let m := put m rE ((N + m alt) * cos (m lat) * cos (m lon)) in
    let m := put m (rE + 1)%nat ((N + m alt) * cos (m lat) * sin (m lon)) in
    let m := put m (rE + 2)%nat ((((1 - e * e) * N) + m alt) * sin (m lat)) in
    Ret (true, m).
