(** What a stationary inertial unit measures, in north-east-down components. *)
From Coq Require Import Reals.
From Verif Require Import Base BaseVec.
Open Scope R_scope.

(** Specific force (the support force, up) and the Earth's rotation rate at
    latitude [lat]: along the axis, north component positive. *)
Definition rest_force (g : R) : vec3 := V3 0 0 (- g).
Definition earth_rate (wE lat : R) : vec3 := V3 (wE * cos lat) 0 (- (wE * sin lat)).
