(** Model of src/inertial/compensator.cpp and compensator.hpp.  Doubles are exact
    reals; the std::cout diagnostics are not modelled. *)
From Coq Require Import Reals List String.
From Verif Require Import Base BaseVec.
Import ListNotations.
Open Scope R_scope.

(** One sensor's stored errors (compensator.hpp 104-109: ba_, ma_, sfa_ and bg_,
    mg_, sfg_).  A Vector3d is [None] while it holds no value: Eigen does not
    initialise it, and copying an indeterminate double is undefined. *)
Record Errors := Err { e_b : option vec3; e_m : VectorXd; e_sf : option vec3 }.
Record Compensator := Comp { accel : Errors; gyro : Errors }.

(** The implicit default constructor: a default VectorXd is empty. *)
Definition newCompensator : Compensator := Comp (Err None [] None) (Err None [] None).

(** compensator.cpp 15-34. *)
Definition setAccelerometerErrors (baEst : vec3) (maEst : VectorXd) (sfaEst : vec3) (c : Compensator)
  : bool * Compensator :=
  if negb (Nat.eqb (List.length maEst) 6) then (false, c)
  else (true, Comp (Err (Some baEst) maEst (Some sfaEst)) (gyro c)).

(** compensator.cpp 37-56. *)
Definition setGyroscopeErrors (bgEst : vec3) (mgEst : VectorXd) (sfgEst : vec3) (c : Compensator)
  : bool * Compensator :=
  if negb (Nat.eqb (List.length mgEst) 6) then (false, c)
  else (true, Comp (accel c) (Err (Some bgEst) mgEst (Some sfgEst))).

(** Reading a Vector3d member. *)
Definition value (v : option vec3) : outcome vec3 := match v with Some x => Ret x | None => Undef end.

(** compensator.cpp 59-78.  The arguments are the old values of the outputs. *)
Definition getAccelerometerErrors (c : Compensator) (baEst : vec3) (maEst : VectorXd) (sfaEst : vec3)
  : outcome (bool * (vec3 * VectorXd * vec3)) :=
  if negb (Nat.eqb (List.length maEst) 6) then Ret (false, (baEst, maEst, sfaEst))
  else b <- value (e_b (accel c)) ;; s <- value (e_sf (accel c)) ;; Ret (true, (b, e_m (accel c), s)).

(** compensator.cpp 81-100. *)
Definition getGyroscopeErrors (c : Compensator) (bgEst : vec3) (mgEst : VectorXd) (sfgEst : vec3)
  : outcome (bool * (vec3 * VectorXd * vec3)) :=
  if negb (Nat.eqb (List.length mgEst) 6) then Ret (false, (bgEst, mgEst, sfgEst))
  else b <- value (e_b (gyro c)) ;; s <- value (e_sf (gyro c)) ;; Ret (true, (b, e_m (gyro c), s)).

(** m[i] of a VectorXd: out of range fails Eigen's assertion or reads past the end. *)
Definition elem (m : VectorXd) (i : nat) : outcome R :=
  match nth_error m i with Some x => Ret x | None => Undef end.

(** compensator.cpp 133-167.  For any other [measType] the locals stay
    unassigned, as in the default-constructed record. *)
Definition compensateMeasurement (c : Compensator) (meas : vec3) (measType : string) : outcome (bool * vec3) :=
  let e := if String.eqb measType "accel" then accel c
           else if String.eqb measType "gyro" then gyro c else Err None [] None in
  b <- value (e_b e) ;;
  let m := e_m e in
  sf <- value (e_sf e) ;;
  let SF := M3 (vx sf) 0 0  0 (vy sf) 0  0 0 (vz sf) in
  m0 <- elem m 0 ;; m1 <- elem m 1 ;; m2 <- elem m 2 ;; m3 <- elem m 3 ;; m4 <- elem m 4 ;; m5 <- elem m 5 ;;
  let MIS := M3 1 m0 m1  m2 1 m3  m4 m5 1 in
  Ret (true, mvmul (mmul SF MIS) (vsub meas b)).

(** compensator.cpp 103-115 and 118-130: on failure the argument keeps its value. *)
Definition compensateAccelerometer (c : Compensator) (dV : vec3) : outcome (bool * vec3) :=
  r <- compensateMeasurement c dV "accel" ;;
  if negb (fst r) then Ret (false, dV) else Ret (true, snd r).
Definition compensateGyroscope (c : Compensator) (dTh : vec3) : outcome (bool * vec3) :=
  r <- compensateMeasurement c dTh "gyro" ;;
  if negb (fst r) then Ret (false, dTh) else Ret (true, snd r).
