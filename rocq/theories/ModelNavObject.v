(** The Strapdown object of strapdown.hpp with all its members, the private ones
    included, and the two functions of strapdown.cpp as they assign them.  The
    members are public in part, so a program may also write them between calls.
    Doubles are exact reals; [None] stands for a matrix, or for a position and
    velocity, that holds inf or NaN; std::cout is not modelled.  No proofs here. *)
From Coq Require Import Reals ZArith List.
From Verif Require Import Base BaseVec ModelAttitude ModelGravity ModelNavUtils ModelStrapdown.
Import ListNotations.
Open Scope R_scope.

(** strapdown.hpp 27-31 (public) and 68-71 (private).  Position and velocity
    are kept as pairs. *)
Record Object := Obj {
  o_pv : option (vec3 * vec3); o_RB2N : option mat3; o_tov : Z; o_dt : R;
  o_pvPrev : option (vec3 * vec3); o_RB2NPrev : option mat3; o_tovPrev : Z }.

(** strapdown.cpp 15-38. *)
Definition initialize_obj (lla vNed rph : vec3) (t : Z) (o : Object) : bool * Object :=
  let o := Obj (Some (lla, vNed)) (o_RB2N o) t (o_dt o) (o_pvPrev o) (o_RB2NPrev o) (o_tovPrev o) in
  let '(ok, R0) := euler2Dcm rph in
  if negb ok then (false, o)
  else (true, Obj (o_pv o) (Some R0) (o_tov o) (o_dt o) (Some (lla, vNed)) (Some R0) t).

(** strapdown.cpp 88-109: reads RB2NPrev_, assigns RB2N_. *)
Definition updateAttitude_obj (dTh : vec3) (o : Object) : outcome (bool * Object) :=
  let set A := Obj (o_pv o) A (o_tov o) (o_dt o) (o_pvPrev o) (o_RB2NPrev o) (o_tovPrev o) in
  match o_RB2NPrev o with
  | None => Ret (true, set None)
  | Some A => match updateAttitude A dTh with
              | Ret (true, A') => Ret (true, set (Some A'))
              | Ret (false, _) => Ret (false, o)
              | NonFinite => Ret (true, set None)
              | Undef => Undef | Throw => Throw | NoFuel => NoFuel
              end
  end.

(** strapdown.cpp 41-85. *)
Definition integrate_obj (dV dTh : vec3) (t : Z) (o : Object) : outcome (bool * Object) :=
  let o := Obj (o_pv o) (o_RB2N o) (o_tov o) (o_dt o) (o_pv o) (o_RB2N o) (o_tov o) in
  let o := Obj (o_pv o) (o_RB2N o) t (o_dt o) (o_pvPrev o) (o_RB2NPrev o) (o_tovPrev o) in
  let d := (o_tov o - o_tovPrev o)%Z in
  if orb (Z.ltb d int64_min) (Z.ltb int64_max d) then Undef
  else
    let o := Obj (o_pv o) (o_RB2N o) (o_tov o) (IZR d / 1000000) (o_pvPrev o) (o_RB2NPrev o) (o_tovPrev o) in
    r <- updateAttitude_obj dTh o ;;
    let '(ok, o) := r in
    if negb ok then Ret (false, o)
    else
      let set p := Obj p (o_RB2N o) (o_tov o) (o_dt o) (o_pvPrev o) (o_RB2NPrev o) (o_tovPrev o) in
      match o_RB2N o, o_pv o, o_pvPrev o with
      | Some A, Some (lla, vNed), Some (llaPrev, vNedPrev) =>
          match gravityNed (vx lla) (vz lla) with
          | Ret (true, gN) =>
              match strapdownRk4 [vx llaPrev; vy llaPrev; vz llaPrev; vx vNedPrev; vy vNedPrev; vz vNedPrev]
                                 (o_dt o) (mvmul A dV) gN [0; 0; 0; 0; 0; 0] with
              | Ret (true, [y0; y1; y2; y3; y4; y5]) => Ret (true, set (Some (V3 y0 y1 y2, V3 y3 y4 y5)))
              | Ret (true, _) => Undef
              | Ret (false, _) => Ret (false, o)
              | NonFinite => Ret (true, set None)
              | Undef => Undef | Throw => Throw | NoFuel => NoFuel
              end
          | Ret (false, _) => Ret (false, o)
          | NonFinite => Ret (true, set None)
          | Undef => Undef | Throw => Throw | NoFuel => NoFuel
          end
      | _, _, _ => Ret (true, set None)
      end.

(** What a program can do with an object: the two calls, and assignments to the
    public members lla_ and vNed_, RB2N_ and tov_ (a filter's corrections). *)
Inductive action :=
| Initialize (lla vNed rph : vec3) (t : Z)
| Integrate (dV dTh : vec3) (t : Z)
| SetPv (lla vNed : vec3)
| SetRB2N (A : mat3)
| SetTov (t : Z).
Definition act (a : action) (o : Object) : outcome Object :=
  match a with
  | Initialize lla vNed rph t => Ret (snd (initialize_obj lla vNed rph t o))
  | Integrate dV dTh t => r <- integrate_obj dV dTh t o ;; Ret (snd r)
  | SetPv lla vNed => Ret (Obj (Some (lla, vNed)) (o_RB2N o) (o_tov o) (o_dt o) (o_pvPrev o) (o_RB2NPrev o) (o_tovPrev o))
  | SetRB2N A => Ret (Obj (o_pv o) (Some A) (o_tov o) (o_dt o) (o_pvPrev o) (o_RB2NPrev o) (o_tovPrev o))
  | SetTov t => Ret (Obj (o_pv o) (o_RB2N o) t (o_dt o) (o_pvPrev o) (o_RB2NPrev o) (o_tovPrev o))
  end.
Fixpoint acts (l : list action) (o : Object) : outcome Object :=
  match l with
  | [] => Ret o
  | a :: l => o <- act a o ;; acts l o
  end.
