(** Independent specification of rotations: what a user means by "R is a proper
    rotation", by the Hamilton product and by rotating about an axis. *)
From Coq Require Import Reals List.
From Verif Require Import Base BaseVec.
Import ListNotations.
Open Scope R_scope.

(** A linear map of 3-space is a proper rotation when it preserves inner
    products and cross products (lengths, angles and handedness). *)
Definition is_rotation (A : mat3) : Prop :=
  (forall u v, dot (mvmul A u) (mvmul A v) = dot u v) /\
  (forall u v, cross (mvmul A u) (mvmul A v) = mvmul A (cross u v)).

(** Rotating the vector [v] about the unit axis [n] by the angle [t]
    (right-hand rule): Rodrigues' formula. *)
Definition rotate (n : vec3) (t : R) (v : vec3) : vec3 :=
  vadd (vadd (vscale (cos t) v) (vscale (sin t) (cross n v)))
       (vscale ((1 - cos t) * dot n v) n).

(** Quaternions as (scalar, vector) pairs and Hamilton's product
    (s,u)(t,v) = (st - u.v, s v + t u + u x v). *)
Definition qmul (p q : R * vec3) : R * vec3 :=
  (fst p * fst q - dot (snd p) (snd q),
   vadd (vadd (vscale (fst p) (snd q)) (vscale (fst q) (snd p))) (cross (snd p) (snd q))).
Definition qconj (p : R * vec3) : R * vec3 := (fst p, vneg (snd p)).
Definition qnorm2 (p : R * vec3) : R := fst p * fst p + dot (snd p) (snd p).
Definition qlist (p : R * vec3) : list R := [fst p; vx (snd p); vy (snd p); vz (snd p)].

(** Coordinates of [v] in a frame turned by the quaternion [q]: the vector part
    of conj(q) v q / |q|^2 (passive convention). *)
Definition qframe (q : R * vec3) (v : vec3) : vec3 :=
  vscale (/ qnorm2 q) (snd (qmul (qmul (qconj q) (0, v)) q)).

(** Body x, y, z axes in north-east-down components for roll r, pitch p and
    heading h: turn by h about down, then p about the new y, then r about the
    new x. *)
Definition ex : vec3 := V3 1 0 0.
Definition ey : vec3 := V3 0 1 0.
Definition ez : vec3 := V3 0 0 1.
Definition body_axis (r p h : R) (b : vec3) : vec3 :=
  rotate ez h (rotate ey p (rotate ex r b)).

(** Quaternions whose last component is 0 and whose largest squared component
    among the other three is attained at least twice. *)
Definition tie (a b c d : R) : Prop :=
  d = 0 /\ ((a*a = b*b /\ c*c <= a*a) \/ (a*a = c*c /\ b*b <= a*a) \/ (b*b = c*c /\ a*a <= b*b)).

(** Matrix times vector for a dynamic matrix. *)
Definition mx_apply (Q : MatrixXd) (v : list R) : list R :=
  map (fun i => fold_right Rplus 0
        (map (fun j => mx_at Q i j * nth j v 0) (seq 0 (mx_cols Q))))
      (seq 0 (mx_rows Q)).
