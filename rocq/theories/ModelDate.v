(** Model of the calendar functions of src/util/Rotations.cpp (370-528).  No proofs here. *)
From Coq Require Import Reals ZArith List Bool.
From Flocq Require Import Core IEEE754.Binary IEEE754.Bits IEEE754.BinarySingleNaN.
From Verif Require Import Base.
Import ListNotations.
Open Scope Z_scope.

(** Rotations.cpp 374, implicit conversion of int64_t to double (round to nearest even). *)
Definition doubleOfZ (t : Z) : binary64 :=
  Binary.binary_normalize 53 1024 (eq_refl _) (eq_refl _) mode_NE t 0 false.

(** Rotations.cpp 374: [long int sec = t_utc / 1e6;]  a double division, then
    truncation.  The conversion to long int cannot overflow: |t_utc| / 1e6 < 2^63. *)
Definition unixSeconds (t : Z) : Z :=
  Binary.Btrunc 53 1024 (b64_div mode_NE (doubleOfZ t) (doubleOfZ 1000000)).

(** Rotations.cpp 377. *)
Definition daysOfMonth : list Z := [31; 28; 31; 30; 31; 30; 31; 31; 30; 31; 30; 31].

(** [daysOfMonth[i]]; an index outside the array is undefined behaviour. *)
Definition daysOfMonthAt (i : Z) : outcome Z :=
  if (i <? 0) || (12 <=? i) then Undef
  else match nth_error daysOfMonth (Z.to_nat i) with Some d => Ret d | None => Undef end.

(** Rotations.cpp 390 and 405: the leap-year test.  C++ [%] truncates. *)
Definition isLeap (y : Z) : bool :=
  (Z.rem y 400 =? 0) || ((Z.rem y 4 =? 0) && negb (Z.rem y 100 =? 0)).

(** Rotations.cpp 389-402: subtract whole years.  The loop is bounded by [fuel].
    Arithmetic stays far inside long int: it starts from |daysTillNow| < 2^47. *)
Fixpoint yearLoop (fuel : nat) (currYear daysTillNow : Z) : outcome (Z * Z) :=
  match fuel with
  | O => NoFuel
  | S fuel =>
      if isLeap currYear then
        if daysTillNow <? 366 then Ret (currYear, daysTillNow)
        else yearLoop fuel (currYear + 1) (daysTillNow - 366)
      else
        if daysTillNow <? 365 then Ret (currYear, daysTillNow)
        else yearLoop fuel (currYear + 1) (daysTillNow - 365)
  end.

(** Rotations.cpp 411-438: subtract whole months; [flag] selects the loop with
    the 29-day February (411-428) or the plain one (430-438). *)
Fixpoint monthLoop (fuel : nat) (flag : bool) (index month extraDays : Z) : outcome (Z * Z) :=
  match fuel with
  | O => NoFuel
  | S fuel =>
      if flag && (index =? 1) then
        if extraDays - 29 <? 0 then Ret (month, extraDays)
        else monthLoop fuel flag (index + 1) (month + 1) (extraDays - 29)
      else
        d <- daysOfMonthAt index ;;
        if extraDays - d <? 0 then Ret (month, extraDays)
        else monthLoop fuel flag (index + 1) (month + 1) (extraDays - d)
  end.

(** Rotations.cpp 370-470, the six values pushed.  [sec] is the result of line 374.
    Year fuel: every iteration but the last removes at least 365 days. *)
Definition dateFields (sec : Z) : outcome (list Z) :=
  let daysTillNow := Z.quot sec (24 * 60 * 60) in
  let extraTime := Z.rem sec (24 * 60 * 60) in
  yd <- yearLoop (Z.to_nat (Z.max 0 (daysTillNow / 365) + 2)) 1970 daysTillNow ;;
  let '(currYear, daysTillNow) := yd in
  let extraDays := daysTillNow + 1 in
  let flag := isLeap currYear in
  me <- monthLoop 14 flag 0 0 extraDays ;;
  let '(month, extraDays) := me in
  md <- (if 0 <? extraDays then Ret (month + 1, extraDays)
         else if (month =? 2) && flag then Ret (month, 29)
         else d <- daysOfMonthAt (month - 1) ;; Ret (month, d)) ;;
  let '(month, date) := md in
  let HH := Z.quot extraTime 3600 in
  let MM := Z.quot (Z.rem extraTime 3600) 60 in
  let SS := Z.rem (Z.rem extraTime 3600) 60 in
  Ret [currYear; month; date; HH; MM; SS].

(** Rotations.cpp 370-470.  The fields are appended to [dateVec] (push_back). *)
Definition unixTimestampToDateVec (t_utc : Z) (dateVec : list R) : outcome (bool * list R) :=
  f <- dateFields (unixSeconds t_utc) ;;
  Ret (true, dateVec ++ map IZR f).

Open Scope R_scope.

(** Rotations.cpp 473-528.  [rnd] is the rounding of each arithmetic operation
    and constant: the identity gives the real model, rounding to nearest even in
    binary64 gives the double model (without overflow, which needs years
    beyond 10^300).  [dateVec[i]] past the end is undefined behaviour. *)
Definition convertDatevec2Mjd_with (rnd : R -> R) (dateVec : list R) (mjd : R) : outcome (bool * R) :=
  match dateVec with
  | year :: month :: day :: hour :: min :: sec :: _ =>
      if Rltb' 12 month || Rltb' month 0 then Ret (false, mjd)
      else if Rltb' 31 day || Rltb' day 0 then Ret (false, mjd)
      else if Rltb' 23 hour || Rltb' hour 0 then Ret (false, mjd)
      else if Rltb' 59 min || Rltb' min 0 then Ret (false, mjd)
      else if Rltb' 59 sec || Rltb' sec 0 then Ret (false, mjd)
      else
        let wrap := Rleb' month 2 in
        let m := if wrap then rnd (month + 12) else month in
        let y := if wrap then rnd (year - 1) else year in
        let b :=
          if Rleb' (rnd (rnd (rnd (10000 * y) + rnd (100 * m)) + day)) 15821004 then
            rnd (rnd (-2 + Rfloor (rnd (rnd (y + 4716) / 4))) - 1179)
          else
            rnd (rnd (Rfloor (rnd (y / 400)) - Rfloor (rnd (y / 100))) + Rfloor (rnd (y / 4))) in
        let MjdMidnight :=
          rnd (rnd (rnd (rnd (rnd (365 * y) - 679004) + b)
               + Rfloor (rnd (rnd 30.6001 * rnd (m + 1)))) + day) in
        let fracDay := rnd (rnd (rnd (hour + rnd (min / 60)) + rnd (sec / 3600)) / 24) in
        Ret (true, rnd (MjdMidnight + fracDay))
  | _ => Undef
  end.

(** Exact arithmetic. *)
Definition convertDatevec2Mjd : list R -> R -> outcome (bool * R) := convertDatevec2Mjd_with (fun x => x).

(** IEEE double arithmetic, round to nearest even. *)
Definition rnd64 : R -> R := round radix2 (FLT_exp (-1074) 53) ZnearestE.
Definition convertDatevec2Mjd64 : list R -> R -> outcome (bool * R) := convertDatevec2Mjd_with rnd64.
