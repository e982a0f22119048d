(** Model of src/util/NavUtils.cpp. *)
From Coq Require Import Reals List.
From Verif Require Import Base BaseVec ModelGravity.
Import ListNotations.
Open Scope R_scope.

(** NavUtils.cpp 14-30.  Always returns true. *)
Definition skewSymmetric (v : vec3) : bool * mat3 :=
  (true, M3 0 (- vz v) (vy v)
            (vz v) 0 (- vx v)
            (- vy v) (vx v) 0).

(** NavUtils.cpp 100-141 on a state vector already known to have 6 elements
    (strapdownRk4 is the only caller and checks it): position (lat, lon, h) and
    velocity (vN, vE, vD).  [std::pow(x, 1.5)] is [Rpower x 1.5] (its base is
    positive for every latitude because eSq < 1). *)
Definition strapdownDynamics (y : vec3 * vec3) (dVN gN : vec3) (dt : R)
  : outcome (vec3 * vec3) :=
  let lat := vx (fst y) in
  let h := vz (fst y) in
  let vN := vx (snd y) in
  let vE := vy (snd y) in
  let vD := vz (snd y) in
  let wE := gp_wE in
  let fE := gp_f in
  let a := gp_a in
  aN0 <- Rdivc (vx dVN) dt ;;
  aN1 <- Rdivc (vy dVN) dt ;;
  aN2 <- Rdivc (vz dVN) dt ;;
  let eSq := (2 * fE) - (fE * fE) in
  let slat := sin lat in
  let clat := cos lat in
  s <- sqrtc (1 - (eSq * (slat * slat))) ;;
  N <- Rdivc a s ;;
  M <- Rdivc (a * (1 - eSq)) (Rpower (1 - (eSq * (slat * slat))) (3/2)) ;;
  latDot <- Rdivc vN (M + h) ;;
  lonDot <- Rdivc vE ((N + h) * clat) ;;
  let hDot := - vD in
  Ret (V3 latDot lonDot hDot,
       V3 (aN0 + vx gN - (2 * wE * slat * vE) + (latDot * vD) - (lonDot * slat * vE))
          (aN1 + vy gN + (2 * wE * slat * vN) + (2 * wE * clat * vD) + (lonDot * slat * vN) + (lonDot * clat * vD))
          (aN2 + vz gN - (2 * wE * clat * vE) - (lonDot * clat * vE) - (latDot * vN))).

(** Eigen arithmetic on the 6-vectors of strapdownRk4. *)
Definition s6add (y z : vec3 * vec3) : vec3 * vec3 :=
  (vadd (fst y) (fst z), vadd (snd y) (snd z)).
Definition s6scale (k : R) (y : vec3 * vec3) : vec3 * vec3 :=
  (vscale k (fst y), vscale k (snd y)).

(** NavUtils.cpp 50-92. *)
Definition rk4_step (ykm1 : vec3 * vec3) (dt : R) (dVN gN : vec3) : outcome (vec3 * vec3) :=
  f1 <- strapdownDynamics ykm1 dVN gN dt ;;
  let K1 := s6scale dt f1 in
  f2 <- strapdownDynamics (s6add ykm1 (s6scale (/ 2) K1)) dVN gN dt ;;
  let K2 := s6scale dt f2 in
  f3 <- strapdownDynamics (s6add ykm1 (s6scale (/ 2) K2)) dVN gN dt ;;
  let K3 := s6scale dt f3 in
  f4 <- strapdownDynamics (s6add ykm1 K3) dVN gN dt ;;
  let K4 := s6scale dt f4 in
  Ret (s6add (s6add (s6add (s6add ykm1 (s6scale (1/6) K1)) (s6scale (1/3) K2))
                    (s6scale (1/3) K3)) (s6scale (1/6) K4)).

(** NavUtils.cpp 33-97.  [yk] is the old value of the output. *)
Definition strapdownRk4 (ykm1 : VectorXd) (dt : R) (dVN gN : vec3) (yk : VectorXd)
  : outcome (bool * VectorXd) :=
  match ykm1 with
  | [a; b; c; d; e; f] =>
      if Nat.eqb (length yk) 6 then
        y <- rk4_step (V3 a b c, V3 d e f) dt dVN gN ;;
        Ret (true, [vx (fst y); vy (fst y); vz (fst y); vx (snd y); vy (snd y); vz (snd y)])
      else Ret (false, yk)
  | _ => Ret (false, yk)
  end.
