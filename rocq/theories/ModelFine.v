(** Model of the fine alignment filter in src/inertial/initialization.cpp.
    Arguments are values and the outputs xkp1, Pkp1 are returned with the bool;
    the calls into the filter are the same when outputs alias inputs
    (C53_predict_in_place, C53_update_in_place).  std::cout is not modelled.
    No proofs here. *)
From Coq Require Import Reals.
From mathcomp Require Import all_ssreflect all_algebra.
From Verif Require Import Base BaseMx ModelEigen ModelKalman.
Set Implicit Arguments.
Unset Strict Implicit.
Unset Printing Implicit Defensive.
Import GRing.Theory.
Local Open Scope ring_scope.
Local Open Scope outcome_scope.
Delimit Scope R_scope with re.

(** Eigen's comma initialiser, row by row. *)
Definition mx_of (r c : nat) (l : seq (seq R)) : 'M[R]_(r, c) := \matrix_(i, j) nth R0 (nth [::] l i) j.

(** initialization.cpp 75-88.  1.0/r and tan(lat) are not finite for r = 0 and
    cos(lat) = 0. *)
Definition alignmentPhik (lat wE g r : R) : outcome 'M[R]_8 :=
  let slat := sin lat in
  let clat := cos lat in
  tlat <- Rdivc slat clat ;;
  ir <- Rdivc 1 r ;;
  tr <- Rdivc tlat r ;;
  mir <- Rdivc (-1) r ;;
  Ret (mx_of 8 8
   [:: [:: R0; Rmult (Ropp wE) slat; R0; (-1)%re; R0; R0; R0; ir];
       [:: Rmult wE slat; R0; Rmult wE clat; R0; (-1)%re; R0; mir; R0];
       [:: R0; Rmult (Ropp wE) clat; R0; R0; R0; (-1)%re; R0; tr];
       [:: R0; R0; R0; R0; R0; R0; R0; R0];
       [:: R0; R0; R0; R0; R0; R0; R0; R0];
       [:: R0; R0; R0; R0; R0; R0; R0; R0];
       [:: R0; g; R0; R0; R0; R0; R0; Rmult (Rmult (-2)%re wE) slat];
       [:: Ropp g; R0; R0; R0; R0; R0; Rmult (Rmult 2%re wE) slat; R0]]).

(** initialization.cpp 47-102.  filterPredict compares sizes before it uses the
    8x8 matrix Phik, so for other state sizes its entries do not matter. *)
Definition fineAlignmentPredict (lat wE g r : R) (xk : dvec) (Pk : dmat) (xkp1 : dvec) (Pkp1 : dmat) :
    outcome (bool * (dvec * dmat)) :=
  let numStates := dv_n xk in
  if wrong_size Pk numStates numStates then Ret (false, (xkp1, Pkp1))
  else if dv_n xkp1 != numStates then Ret (false, (xkp1, Pkp1))
  else if wrong_size Pkp1 numStates numStates then Ret (false, (xkp1, Pkp1))
  else
    let Qk := zeros numStates numStates in
    if numStates != 8%N then
      r <- filterPredict xk Pk (zeros 8 8) Qk xkp1 Pkp1 ;;
      if ~~ r.1 then Ret (false, r.2) else Ret (true, r.2)
    else
      Phik <- alignmentPhik lat wE g r ;;
      r <- filterPredict xk Pk (DM Phik) Qk xkp1 Pkp1 ;;
      if ~~ r.1 then Ret (false, r.2) else Ret (true, r.2).

(** initialization.cpp 105-155. *)
Definition fineAlignmentAzimuthUpdate (azMeas dtAz azEst sigAz : R) (xk : dvec) (Pk : dmat) (xkp1 : dvec) (Pkp1 : dmat) :
    outcome (bool * (dvec * dmat)) :=
  let numStates := dv_n xk in
  if wrong_size Pk numStates numStates then Ret (false, (xkp1, Pkp1))
  else if dv_n xkp1 != numStates then Ret (false, (xkp1, Pkp1))
  else if wrong_size Pkp1 numStates numStates then Ret (false, (xkp1, Pkp1))
  else
    let azRes := Rminus azMeas azEst in
    let sASq := Rmult sigAz sigAz in
    let z := DV (mx_of 1 1 [:: [:: azRes]]) in
    let H := DM (mx_of 1 8 [:: [:: R0; R0; R1; R0; R0; R0; R0; R0]]) in
    let Rk := DM (mx_of 1 1 [:: [:: Rmult sASq dtAz]]) in
    r <- filterUpdate xk Pk z H Rk xkp1 Pkp1 ;;
    if ~~ r.1 then Ret (false, r.2) else Ret (true, r.2).

(** initialization.cpp 158-206.  velMeas is a Vector2d: its two entries. *)
Definition fineAlignmentVelocityUpdate (vel0 vel1 dtVel sigVel : R) (xk : dvec) (Pk : dmat) (xkp1 : dvec) (Pkp1 : dmat) :
    outcome (bool * (dvec * dmat)) :=
  let numStates := dv_n xk in
  if wrong_size Pk numStates numStates then Ret (false, (xkp1, Pkp1))
  else if dv_n xkp1 != numStates then Ret (false, (xkp1, Pkp1))
  else if wrong_size Pkp1 numStates numStates then Ret (false, (xkp1, Pkp1))
  else
    let sVSq := Rmult sigVel sigVel in
    let z := DV (mx_of 2 1 [:: [:: vel0]; [:: vel1]]) in
    let H := DM (mx_of 2 8 [:: [:: R0; R0; R0; R0; R0; R0; R1; R0];
                               [:: R0; R0; R0; R0; R0; R0; R0; R1]]) in
    let Rk := DM (mx_of 2 2 [:: [:: Rmult sVSq dtVel; R0];
                                [:: R0; Rmult sVSq dtVel]]) in
    r <- filterUpdate xk Pk z H Rk xkp1 Pkp1 ;;
    if ~~ r.1 then Ret (false, r.2) else Ret (true, r.2).
