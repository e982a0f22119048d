(** Specification of the calibration store: call histories and the map a stored
    calibration stands for. *)
From Coq Require Import Reals List.
From Verif Require Import Base BaseVec ModelCompensator.
Import ListNotations.
Open Scope R_scope.

Inductive sensor := Accelerometer | Gyroscope.

(** Public calls on one object. *)
Inductive ccall :=
| CSet (s : sensor) (b : vec3) (m : VectorXd) (sf : vec3)
| CGet (s : sensor) (b : vec3) (m : VectorXd) (sf : vec3)
| CComp (s : sensor) (v : vec3).

Definition set_errors (s : sensor) := match s with Accelerometer => setAccelerometerErrors | Gyroscope => setGyroscopeErrors end.
Definition get_errors (s : sensor) := match s with Accelerometer => getAccelerometerErrors | Gyroscope => getGyroscopeErrors end.
Definition compensate (s : sensor) := match s with Accelerometer => compensateAccelerometer | Gyroscope => compensateGyroscope end.

(** The object after one call, or after a history; undefined behaviour ends it. *)
Definition cstep (c : Compensator) (k : ccall) : outcome Compensator :=
  match k with
  | CSet s b m sf => Ret (snd (set_errors s b m sf c))
  | CGet s b m sf => bind (get_errors s c b m sf) (fun _ => Ret c)
  | CComp s v => bind (compensate s c v) (fun _ => Ret c)
  end.
Fixpoint crun (c : Compensator) (ks : list ccall) : outcome Compensator :=
  match ks with
  | [] => Ret c
  | k :: ks' => bind (cstep c k) (fun c' => crun c' ks')
  end.

(** A call that stores a calibration of sensor [s]. *)
Definition stores (s : sensor) (k : ccall) : Prop :=
  exists b m sf, k = CSet s b m sf /\ List.length m = 6%nat.

(** What bias [b], misalignments [m0..m5] (row by row, ones on the diagonal) and
    scale factors [sf] do to a raw measurement. *)
Definition calibrated (b : vec3) (m0 m1 m2 m3 m4 m5 : R) (sf v : vec3) : vec3 :=
  let x := vx v - vx b in let y := vy v - vy b in let z := vz v - vz b in
  V3 (vx sf * (x + m0 * y + m1 * z)) (vy sf * (m2 * x + y + m3 * z)) (vz sf * (m4 * x + m5 * y + z)).
