(** A sequence of integrate calls in rounded arithmetic, the inputs and states
    for which its errors are bounded, and how far apart two states may be. *)
From Coq Require Import Reals ZArith List.
From Flocq Require Import Core.
From Verif Require Import Base BaseVec SpecRot SpecConverge ModelNavUtils ModelStrapdown ModelStrapdownFloat ModelNavFloat.
Import ListNotations.
Open Scope R_scope.

(** Increments and time of validity in microseconds. *)
Definition stamp : Type := vec3 * vec3 * Z.
(** Repeated calls of integrate (strapdown.cpp 41-85), each from the numbers
    stored by the one before; a call that returns false ends the run. *)
Fixpoint nav_run_f (F : FloatOps) (pow2 pow15 : R -> R) (s : mat3 * (vec3 * vec3)) (t0 : Z) (l : list stamp) : outcome (bool * (mat3 * (vec3 * vec3))) :=
  match l with
  | [] => Ret (true, s)
  | (dV, dTh, t) :: l' =>
      r <- integrate_f F pow2 pow15 dV dTh t (fst s) (fst (snd s)) (snd (snd s)) t0 ;;
      if fst r then nav_run_f F pow2 pow15 (snd r) t l' else Ret r
  end.
(** The time since the previous stamp in seconds. *)
Definition lapse (t0 t : Z) : R := IZR (t - t0) / 1000000.
(** The same inputs with time steps in seconds. *)
Fixpoint steps (t0 : Z) (l : list stamp) : list step :=
  match l with
  | [] => []
  | (dV, dTh, t) :: l' => (dV, dTh, lapse t0 t) :: steps t l'
  end.
(** Stamps between a microsecond and a second apart, specific force of at most
    98 m/s^2, increments that are neither tiny nor more than 4 rad. *)
Fixpoint inputs_ok (t0 : Z) (l : list stamp) : Prop :=
  match l with
  | [] => True
  | (dV, dTh, t) :: l' => (1 <= t - t0 <= 1000000)%Z /\ norm dV <= 98 * lapse t0 t /\ bpow radix2 (-480) <= norm dTh <= 4 /\ inputs_ok t l'
  end.
(** Away from the poles, below 100 km, at most 1 km/s in each direction. *)
Definition place_ok (y : vec3 * vec3) : Prop :=
  Rabs (vx (fst y)) <= 148 / 100 /\ Rabs (vy (fst y)) <= 7 /\ Rabs (vz (fst y)) <= 100000 /\
  Rabs (vx (snd y)) <= 1000 /\ Rabs (vy (snd y)) <= 1000 /\ Rabs (vz (snd y)) <= 1000.
(** Within rounding of each other: 3e-13 times the length of any vector turned,
    1e-15 and 4e-15 rad, 1e-10 m, 3e-11 m/s. *)
Definition rounding_apart (s s' : mat3 * (vec3 * vec3)) : Prop :=
  (forall v, norm (vsub (mvmul (fst s') v) (mvmul (fst s) v)) <= 3 / 10000000000000 * norm v) /\
  Rabs (vx (fst (snd s')) - vx (fst (snd s))) <= 1 / 1000000000000000 /\ Rabs (vy (fst (snd s')) - vy (fst (snd s))) <= 4 / 1000000000000000 /\
  Rabs (vz (fst (snd s')) - vz (fst (snd s))) <= 1 / 10000000000 /\ Rabs (vx (snd (snd s')) - vx (snd (snd s))) <= 3 / 100000000000 /\
  Rabs (vy (snd (snd s')) - vy (snd (snd s))) <= 3 / 100000000000 /\ Rabs (vz (snd (snd s')) - vz (snd (snd s))) <= 3 / 100000000000.
(** As long as the computed position stays in range, every rounded call returns
    true, with a state within rounding of what exact arithmetic makes of the
    computed state before it. *)
Fixpoint follows (F : FloatOps) (pow2 pow15 : R -> R) (s : mat3 * (vec3 * vec3)) (t0 : Z) (l : list stamp) : Prop :=
  match l with
  | [] => True
  | (dV, dTh, t) :: l' => place_ok (snd s) -> exists s1 s2,
      integrate_f F pow2 pow15 dV dTh t (fst s) (fst (snd s)) (snd (snd s)) t0 = Ret (true, s1) /\
      integrate dV dTh t (Some (NavS (Some (fst s)) (Some (snd s)) t0 0)) = Ret (true, Some (NavS (Some (fst s2)) (Some (snd s2)) t (lapse t0 t))) /\
      rounding_apart s2 s1 /\ follows F pow2 pow15 s1 t l'
  end.

(** The computed positions stay in range, from the first to the last. *)
Fixpoint stays (F : FloatOps) (pow2 pow15 : R -> R) (s : mat3 * (vec3 * vec3)) (t0 : Z) (l : list stamp) : Prop :=
  place_ok (snd s) /\
  match l with
  | [] => True
  | (dV, dTh, t) :: l' => forall s1, integrate_f F pow2 pow15 dV dTh t (fst s) (fst (snd s)) (snd (snd s)) t0 = Ret (true, s1) -> stays F pow2 pow15 s1 t l'
  end.
(** A run in which every call may end up to [rho] away from its exact result
    before the next one starts. *)
Inductive disturbed (rho : R) : mat3 * (vec3 * vec3) -> list step -> mat3 * (vec3 * vec3) -> Prop :=
| dist_nil s : disturbed rho s [] s
| dist_cons s dV dTh dt l s1 s2 : (forall s', nav_call s dV dTh dt = Ret s' -> d9 (fst s1) (fst s') + d6 (snd s1) (snd s') <= rho) ->
    disturbed rho s1 l s2 -> disturbed rho s ((dV, dTh, dt) :: l) s2.
