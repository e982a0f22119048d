(** The civil calendar, specified by "the day after": Julian leap years up to
    1582, 1582-10-04 followed by 1582-10-15, Gregorian leap years afterwards.
    Years are astronomical (year 0 precedes year 1). *)
From Coq Require Import ZArith Bool.
Open Scope Z_scope.

Record date := Date { year : Z; month : Z; day : Z }.

Definition leap (y : Z) : bool :=
  if y <=? 1582 then y mod 4 =? 0
  else (y mod 4 =? 0) && (negb (y mod 100 =? 0) || (y mod 400 =? 0)).

Definition month_length (y m : Z) : Z :=
  match m with
  | 2 => if leap y then 29 else 28
  | 4 | 6 | 9 | 11 => 30
  | _ => 31
  end.

(** The dates that exist. *)
Definition valid_date (d : date) : Prop :=
  1 <= month d <= 12 /\ 1 <= day d <= month_length (year d) (month d) /\
  ~ (year d = 1582 /\ month d = 10 /\ 5 <= day d <= 14).

Definition next_day (d : date) : date :=
  if (year d =? 1582) && (month d =? 10) && (day d =? 4) then Date 1582 10 15
  else if day d <? month_length (year d) (month d) then Date (year d) (month d) (day d + 1)
  else if month d <? 12 then Date (year d) (month d + 1) 1
  else Date (year d + 1) 1 1.

(** [n] days later. *)
Fixpoint days_later (n : nat) (d : date) : date :=
  match n with O => d | S n => next_day (days_later n d) end.

(** Midnights of 1970-01-01 (Unix epoch) and 1858-11-17 (MJD epoch). *)
Definition unix_epoch : date := Date 1970 1 1.
Definition mjd_epoch : date := Date 1858 11 17.

(** Day [d] is [n] days after [e] (before, for negative [n]). *)
Definition days_from (e d : date) (n : Z) : Prop :=
  (0 <= n /\ d = days_later (Z.to_nat n) e) \/ (n < 0 /\ valid_date d /\ e = days_later (Z.to_nat (- n)) d).
