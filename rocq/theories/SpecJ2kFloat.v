(** Hypotheses of the theorems on the J2000 / ECEF rotation in double arithmetic. *)
From Coq Require Import Reals ZArith List.
From Verif Require Import Base SpecCalendar ModelEop.
Open Scope R_scope.

(** Earth orientation parameters of ordinary size: pole offsets up to 10
    arcseconds, UT1-UTC up to 10 s, TAI-UTC up to 1000 s. *)
Definition eop_sane (t : EopTable) : Prop :=
  Forall (fun v => Rabs v <= 10) (e_xPole t) /\ Forall (fun v => Rabs v <= 10) (e_yPole t) /\
  Forall (fun v => Rabs v <= 10) (e_ut1 t) /\ Forall (fun v => Rabs v <= 1000) (e_tai t).

(** A date of the calendar between 1810 and 2190 and a time of day that the
    date conversion accepts. *)
Definition date_ok (d : date) (h mi s : R) : Prop :=
  valid_date d /\ (1810 <= year d <= 2190)%Z /\ 0 <= h <= 23 /\ 0 <= mi <= 59 /\ 0 <= s <= 59.
