(** Model of src/inertial/strapdown.cpp and strapdown.hpp.  Doubles are exact
    reals; int64_t is [Z] with overflow undefined.  std::cout is not modelled. *)
From Coq Require Import Reals ZArith List.
From Verif Require Import Base BaseVec ModelAttitude ModelGravity ModelNavUtils.
Import ListNotations.
Open Scope R_scope.

(** The members of an initialised object (strapdown.hpp 27-31).  [RB2N] is
    [None] when the matrix holds inf or NaN; [pv] (lla_ and vNed_) is [None] when
    a component of position or velocity is inf or NaN.  Once there, they stay:
    every later value is a sum or product with the old one, and no function
    called here has a guard that a NaN could trigger.  The ...Prev_ members are
    private, always written before they are read within a call, and so appear
    only as local values. *)
Record Nav := NavS { RB2N : option mat3; pv : option (vec3 * vec3); tov : Z; dt : R }.

(** A new object holds indeterminate values: [None]. *)
Definition Strapdown := option Nav.

(** strapdown.cpp 15-38.  dt_ is not assigned; [None] before stands for an
    indeterminate dt_, modelled as 0 (it is written before any read). *)
Definition initialize (lla vNed rph : vec3) (t : Z) (s : Strapdown) : bool * Strapdown :=
  let '(ok, R0) := euler2Dcm rph in
  if negb ok then (false, s)
  else (true, Some (NavS (Some R0) (Some (lla, vNed)) t (match s with Some n => dt n | None => 0 end))).

(** strapdown.cpp 88-109. *)
Definition updateAttitude (RB2NPrev : mat3) (dTh : vec3) : outcome (bool * mat3) :=
  let dThMag := norm dTh in
  let '(ok, dThX) := skewSymmetric dTh in
  if negb ok then Ret (false, RB2NPrev)
  else
    s <- Rdivc (sin dThMag) dThMag ;;
    c <- Rdivc (1 - cos dThMag) (dThMag * dThMag) ;;
    let B1 := mscale s dThX in
    let B2 := mmul (mscale c dThX) dThX in
    let B := madd (madd m3id B1) B2 in
    Ret (true, mmul RB2NPrev B).

Definition int64_min : Z := (- 2 ^ 63)%Z.
Definition int64_max : Z := (2 ^ 63 - 1)%Z.

(** strapdown.cpp 41-85.  The signed subtraction on line 53 is undefined on
    overflow; its conversion to double is taken as exact. *)
Definition integrate (dV dTh : vec3) (t : Z) (s : Strapdown) : outcome (bool * Strapdown) :=
  match s with
  | None => Undef
  | Some n =>
      let d := (t - tov n)%Z in
      if orb (Z.ltb d int64_min) (Z.ltb int64_max d) then Undef
      else
        let dt' := IZR d / 1000000 in
        let att := match RB2N n with
                   | None => Ret (true, None)
                   | Some A => match updateAttitude A dTh with
                               | Ret (ok, A') => Ret (ok, Some A')
                               | NonFinite => Ret (true, None)
                               | Undef => Undef | Throw => Throw | NoFuel => NoFuel
                               end
                   end in
        a <- att ;;
        let '(ok, A') := a in
        if negb ok then Ret (false, Some (NavS (RB2N n) (pv n) t dt'))
        else
          match A', pv n with
          | Some A', Some (lla, vNed) =>
              let dVN := mvmul A' dV in
              match gravityNed (vx lla) (vz lla) with
              | Ret (true, gN) =>
                  match strapdownRk4 [vx lla; vy lla; vz lla; vx vNed; vy vNed; vz vNed] dt' dVN gN
                                     [0; 0; 0; 0; 0; 0] with
                  | Ret (true, [y0; y1; y2; y3; y4; y5]) =>
                      Ret (true, Some (NavS (Some A') (Some (V3 y0 y1 y2, V3 y3 y4 y5)) t dt'))
                  | Ret (true, _) => Undef
                  | Ret (false, _) => Ret (false, Some (NavS (Some A') (pv n) t dt'))
                  | NonFinite => Ret (true, Some (NavS (Some A') None t dt'))
                  | Undef => Undef | Throw => Throw | NoFuel => NoFuel
                  end
              | Ret (false, _) => Ret (false, Some (NavS (Some A') (pv n) t dt'))
              | NonFinite => Ret (true, Some (NavS (Some A') None t dt'))
              | Undef => Undef | Throw => Throw | NoFuel => NoFuel
              end
          | _, _ => Ret (true, Some (NavS A' None t dt'))
          end
  end.
