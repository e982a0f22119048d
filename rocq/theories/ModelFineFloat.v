(** The fine alignment filter of src/inertial/initialization.cpp in rounded
    arithmetic, for eight states: [r] rounds the result of an operation, [dot] is
    the inner product of a row and a column, [inv] the matrix inversion of the
    library; std::sin, std::cos and std::tan are parameters.  Overflow is not
    modelled.  The checks of the sizes are in ModelFine.v.  No proofs here. *)
From Coq Require Import Reals.
From mathcomp Require Import all_ssreflect all_algebra.
From Verif Require Import Base BaseMx ModelFine ModelFilterFloat ModelUpdateFloat.
Set Implicit Arguments.
Unset Strict Implicit.
Unset Printing Implicit Defensive.
Import GRing.Theory.
Local Open Scope ring_scope.
Local Open Scope outcome_scope.
Delimit Scope R_scope with re.

Section Fine.
Variables (r : R -> R) (dot : dot_fun) (fsin fcos ftan : R -> R).
(** initialization.cpp 75-88. *)
Definition alignmentPhik_f (lat wE g rad : R) : outcome 'M[R]_8 :=
  let slat := fsin lat in
  let clat := fcos lat in
  let tlat := ftan lat in
  ir <- Rdivc 1 rad ;;
  tr <- Rdivc tlat rad ;;
  mir <- Rdivc (-1) rad ;;
  Ret (mx_of 8 8
   [:: [:: R0; r (Ropp wE * slat)%re; R0; (-1)%re; R0; R0; R0; r ir];
       [:: r (wE * slat)%re; R0; r (wE * clat)%re; R0; (-1)%re; R0; r mir; R0];
       [:: R0; r (Ropp wE * clat)%re; R0; R0; R0; (-1)%re; R0; r tr];
       [:: R0; R0; R0; R0; R0; R0; R0; R0];
       [:: R0; R0; R0; R0; R0; R0; R0; R0];
       [:: R0; R0; R0; R0; R0; R0; R0; R0];
       [:: R0; g; R0; R0; R0; R0; R0; r (r (-2 * wE) * slat)%re];
       [:: Ropp g; R0; R0; R0; R0; R0; r (r (2 * wE) * slat)%re; R0]]).
(** initialization.cpp 90-97. *)
Definition fineAlignmentPredict_f (lat wE g rad : R) (x : 'cV[R]_8) (P : 'M[R]_8) : outcome ('cV[R]_8 * 'M[R]_8) :=
  Phik <- alignmentPhik_f lat wE g rad ;;
  Ret (filterPredict_f r dot x P Phik 0).
(** initialization.cpp 132-150. *)
Definition fineAlignmentAzimuthUpdate_f (inv : 'M[R]_1 -> outcome 'M[R]_1) (azMeas dtAz azEst sigAz : R) (x : 'cV[R]_8) (P : 'M[R]_8) : outcome ('cV[R]_8 * 'M[R]_8) :=
  let azRes := r (azMeas - azEst)%re in
  let sASq := r (sigAz * sigAz)%re in
  let z := mx_of 1 1 [:: [:: azRes]] in
  let H := mx_of 1 8 [:: [:: R0; R0; R1; R0; R0; R0; R0; R0]] in
  let Rk := mx_of 1 1 [:: [:: r (sASq * dtAz)%re]] in
  filterUpdate_f r dot inv x P z H Rk.
(** initialization.cpp 185-201. *)
Definition fineAlignmentVelocityUpdate_f (inv : 'M[R]_2 -> outcome 'M[R]_2) (vel0 vel1 dtVel sigVel : R) (x : 'cV[R]_8) (P : 'M[R]_8) : outcome ('cV[R]_8 * 'M[R]_8) :=
  let sVSq := r (sigVel * sigVel)%re in
  let z := mx_of 2 1 [:: [:: vel0]; [:: vel1]] in
  let H := mx_of 2 8 [:: [:: R0; R0; R0; R0; R0; R0; R1; R0];
                         [:: R0; R0; R0; R0; R0; R0; R0; R1]] in
  let Rk := mx_of 2 2 [:: [:: r (sVSq * dtVel)%re; R0];
                          [:: R0; r (sVSq * dtVel)%re]] in
  filterUpdate_f r dot inv x P z H Rk.
End Fine.
