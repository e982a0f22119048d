(** Specification of the strapdown navigator: call histories and rotation
    vectors. *)
From Coq Require Import Reals ZArith List.
From Verif Require Import Base BaseVec SpecRot ModelStrapdown.
Import ListNotations.
Open Scope R_scope.

(** One IMU sample: velocity increment, rotation increment, time. *)
Definition sample := (vec3 * vec3 * Z)%type.
Definition s_dV (m : sample) : vec3 := fst (fst m).
Definition s_dTh (m : sample) : vec3 := snd (fst m).
Definition s_t (m : sample) : Z := snd m.

(** The object after a history of integrate calls. *)
Fixpoint run (s : Strapdown) (l : list sample) : outcome Strapdown :=
  match l with
  | [] => Ret s
  | m :: l' => bind (integrate (s_dV m) (s_dTh m) (s_t m) s) (fun r => run (snd r) l')
  end.

(** Turning [v] by a rotation vector [d]: by |d| about d. *)
Definition rotvec (d v : vec3) : vec3 := rotate (vscale (/ norm d) d) (norm d) v.

(** Consecutive times, starting from [t0], whose differences fit in int64. *)
Fixpoint times_fit (t0 : Z) (l : list sample) : Prop :=
  match l with
  | [] => True
  | m :: l' => (- 2 ^ 63 <= s_t m - t0 < 2 ^ 63)%Z /\ times_fit (s_t m) l'
  end.
(** Time of the last sample, or [t0]. *)
Definition last_time (t0 : Z) (l : list sample) : Z := last (map s_t l) t0.

(** Samples whose velocity increment, resolved along the attitude reached with
    that sample, cancels the gravity [g]; [A] is the attitude before them. *)
Fixpoint hovers (A : vec3 -> vec3) (g : vec3) (t0 : Z) (l : list sample) : Prop :=
  match l with
  | [] => True
  | m :: l' =>
      s_dTh m <> v3zero /\ s_t m <> t0 /\
      A (rotvec (s_dTh m) (s_dV m)) = vscale (- (IZR (s_t m - t0) / 1000000)) g /\
      hovers (fun v => A (rotvec (s_dTh m) v)) g (s_t m) l'
  end.

(** The same motion seen by a unit mounted with the rotation [C]: it reads
    [C^T v] where the first unit reads [v]. *)
Definition remount (C : mat3) (m : sample) : sample :=
  (mvmul (mtr C) (s_dV m), mvmul (mtr C) (s_dTh m), s_t m).

(** Reflection in the plane of the equator.  A velocity increment is reflected;
    a rotation increment, being an axial vector, is reflected and reversed. *)
Definition flip : mat3 := M3 (-1) 0 0 0 1 0 0 0 1.
Definition flip_sample (m : sample) : sample :=
  (mvmul flip (s_dV m), vneg (mvmul flip (s_dTh m)), s_t m).
