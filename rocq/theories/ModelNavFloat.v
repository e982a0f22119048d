(** NavUtils::strapdownRk4 and Strapdown::integrate in rounded arithmetic: each
    operation is followed by a rounding, decimal literals are rounded; std::sin,
    std::cos, std::pow(x, 2) and std::pow(x, 1.5) are parameters.  Overflow and
    contraction to fused operations outside inner products are not modelled.
    No proofs here. *)
From Coq Require Import Reals ZArith List.
From Verif Require Import Base BaseVec ModelNavUtils ModelStrapdown ModelStrapdownFloat ModelFramesFloat ModelGravityFloat.
Import ListNotations.
Open Scope R_scope.

(** NavUtils.cpp 100-141, on six numbers as [strapdownDynamics]. *)
Definition strapdownDynamics_f (F : FloatOps) (pow2 pow15 : R -> R) (y : vec3 * vec3) (dVN gN : vec3) (dt : R)
  : outcome (vec3 * vec3) :=
  let r := frnd F in
  let lat := vx (fst y) in
  let h := vz (fst y) in
  let vN := vx (snd y) in
  let vE := vy (snd y) in
  let vD := vz (snd y) in
  let wE := gp_wE_f F in
  let fE := gp_f_f F in
  let a := gp_a_f in
  aN0 <- Rdivc (vx dVN) dt ;;
  aN1 <- Rdivc (vy dVN) dt ;;
  aN2 <- Rdivc (vz dVN) dt ;;
  let eSq := r (r (2 * fE) - pow2 fE) in
  let slat := fsin F lat in
  let clat := fcos F lat in
  s <- sqrtc (r (1 - r (eSq * pow2 slat))) ;;
  N <- Rdivc a (r s) ;;
  M <- Rdivc (r (a * r (1 - eSq))) (pow15 (r (1 - r (eSq * pow2 slat)))) ;;
  ld <- Rdivc vN (r (r M + h)) ;;
  od <- Rdivc vE (r (r (r N + h) * clat)) ;;
  let latDot := r ld in
  let lonDot := r od in
  let hDot := - vD in
  Ret (V3 latDot lonDot hDot,
       V3 (r (r (r (r (r aN0 + vx gN) - r (r (r (2 * wE) * slat) * vE)) + r (latDot * vD)) - r (r (lonDot * slat) * vE)))
          (r (r (r (r (r (r aN1 + vy gN) + r (r (r (2 * wE) * slat) * vN)) + r (r (r (2 * wE) * clat) * vD)) + r (r (lonDot * slat) * vN)) + r (r (lonDot * clat) * vD)))
          (r (r (r (r (r aN2 + vz gN) - r (r (r (2 * wE) * clat) * vE)) - r (r (lonDot * clat) * vE)) - r (latDot * vN)))).

(** Eigen arithmetic on the 6-vectors of strapdownRk4, element by element. *)
Definition vmap (f : R -> R) (v : vec3) : vec3 := V3 (f (vx v)) (f (vy v)) (f (vz v)).
Definition s6map (f : R -> R) (y : vec3 * vec3) : vec3 * vec3 := (vmap f (fst y), vmap f (snd y)).
Definition s6add_f (F : FloatOps) (y z : vec3 * vec3) : vec3 * vec3 := s6map (frnd F) (s6add y z).
Definition s6scale_f (F : FloatOps) (k : R) (y : vec3 * vec3) : vec3 * vec3 := s6map (frnd F) (s6scale k y).

(** NavUtils.cpp 50-92.  Division by two is the product with one half, and 1.0/6.0
    and 1.0/3.0 are rounded. *)
Definition rk4_step_f (F : FloatOps) (pow2 pow15 : R -> R) (ykm1 : vec3 * vec3) (dt : R) (dVN gN : vec3) : outcome (vec3 * vec3) :=
  let dyn y := strapdownDynamics_f F pow2 pow15 y dVN gN dt in
  f1 <- dyn ykm1 ;;
  let K1 := s6scale_f F dt f1 in
  f2 <- dyn (s6add_f F ykm1 (s6scale_f F (/ 2) K1)) ;;
  let K2 := s6scale_f F dt f2 in
  f3 <- dyn (s6add_f F ykm1 (s6scale_f F (/ 2) K2)) ;;
  let K3 := s6scale_f F dt f3 in
  f4 <- dyn (s6add_f F ykm1 K3) ;;
  let K4 := s6scale_f F dt f4 in
  let c6 := frnd F (1 / 6) in
  let c3 := frnd F (1 / 3) in
  Ret (s6add_f F (s6add_f F (s6add_f F (s6add_f F ykm1 (s6scale_f F c6 K1)) (s6scale_f F c3 K2))
                    (s6scale_f F c3 K3)) (s6scale_f F c6 K4)).

(** NavUtils.cpp 33-97. *)
Definition strapdownRk4_f (F : FloatOps) (pow2 pow15 : R -> R) (ykm1 : VectorXd) (dt : R) (dVN gN : vec3) (yk : VectorXd)
  : outcome (bool * VectorXd) :=
  match ykm1 with
  | [a; b; c; d; e; f] =>
      if Nat.eqb (length yk) 6 then
        y <- rk4_step_f F pow2 pow15 (V3 a b c, V3 d e f) dt dVN gN ;;
        Ret (true, [vx (fst y); vy (fst y); vz (fst y); vx (snd y); vy (snd y); vz (snd y)])
      else Ret (false, yk)
  | _ => Ret (false, yk)
  end.

(** strapdown.cpp 41-85, when the stored values are numbers; a result that is
    not is [NonFinite].  The difference of the times of validity is converted to
    double and divided by 1e6, both with rounding.  [lla] and [vNed] are the
    stored position and velocity, [A] the stored attitude, [t0] the stored time. *)
Definition integrate_f (F : FloatOps) (pow2 pow15 : R -> R) (dV dTh : vec3) (t : Z) (A : mat3) (lla vNed : vec3) (t0 : Z)
  : outcome (bool * (mat3 * (vec3 * vec3))) :=
  let d := (t - t0)%Z in
  if orb (Z.ltb d int64_min) (Z.ltb int64_max d) then Undef
  else
    let dt := frnd F (frnd F (IZR d) / 1000000) in
    a <- updateAttitude_f F A dTh ;;
    let '(ok, A') := a in
    if negb ok then Ret (false, (A, (lla, vNed)))
    else
      let dVN := V3 (fdot F (row1 A') dV) (fdot F (row2 A') dV) (fdot F (row3 A') dV) in
      g <- gravityNed_f F pow2 (vx lla) (vz lla) ;;
      let '(okg, gN) := g in
      if negb okg then Ret (false, (A', (lla, vNed)))
      else
        y <- rk4_step_f F pow2 pow15 (lla, vNed) dt dVN gN ;;
        Ret (true, (A', y)).
