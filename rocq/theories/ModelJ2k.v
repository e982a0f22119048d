(** Model of the J2000 / ECEF rotation of src/util/Rotations.cpp: 155-289 and
    531-817.  No proofs here. *)
From Coq Require Import Reals ZArith List String Bool.
From Verif Require Import Base BaseVec ModelDate ModelEop.
Import ListNotations.
Open Scope R_scope.

(** Rotations.hpp 263-269. *)
Definition mjdJ2000 : R := 51544.5.
Definition rad : R := PI / 180.

(** Rotations.cpp 543-556, 585-593, 627-629, 648-653: the elementary matrices
    the code writes out. *)
Definition elemX (a : R) : mat3 := M3 1 0 0  0 (cos a) (sin a)  0 (- sin a) (cos a).
Definition elemY (a : R) : mat3 := M3 (cos a) 0 (- sin a)  0 1 0  (sin a) 0 (cos a).
Definition elemZ (a : R) : mat3 := M3 (cos a) (sin a) 0  (- sin a) (cos a) 0  0 0 1.

(** Rotations.cpp 531-564. *)
Definition computePrecession (mjd1 mjd2 : R) (RPrecession : mat3) : bool * mat3 :=
  let T := (mjd1 - mjdJ2000) / 36525 in
  let dT := (mjd2 - mjd1) / 36525 in
  let zeta := ((2306.2181 + (1.39656 - 0.000139 * T) * T) + ((0.30188 - 0.000344 * T)
                + 0.017998 * dT) * dT) * dT / Arcs in
  let z := zeta + ((0.79280 + 0.000411 * T) + 0.000205 * dT) * dT * dT / Arcs in
  let theta := ((2004.3109 - (0.85330 + 0.000217 * T) * T) - ((0.42665 + 0.000217 * T)
                + 0.041833 * dT) * dT) * dT / Arcs in
  (true, mmul (mmul (elemZ (- z)) (elemY theta)) (elemZ (- zeta))).

(** Rotations.cpp 673-780. *)
Definition nutationTable : list (Z * Z * Z * Z * Z * Z * Z * Z * Z) := (
  [
   (0, 0, 0, 0, 1, (-1719960), (-1742), 920250, 89);
   (0, 0, 0, 0, 2, 20620, 2, (-8950), 5);
   ((-2), 0, 2, 0, 1, 460, 0, (-240), 0);
   (2, 0, (-2), 0, 0, 110, 0, 0, 0);
   ((-2), 0, 2, 0, 2, (-30), 0, 10, 0);
   (1, (-1), 0, (-1), 0, (-30), 0, 0, 0);
   (0, (-2), 2, (-2), 1, (-20), 0, 10, 0);
   (2, 0, (-2), 0, 1, 10, 0, 0, 0);
   (0, 0, 2, (-2), 2, (-131870), (-16), 57360, (-31));
   (0, 1, 0, 0, 0, 14260, (-34), 540, (-1));
   (0, 1, 2, (-2), 2, (-5170), 12, 2240, (-6));
   (0, (-1), 2, (-2), 2, 2170, (-5), (-950), 3);
   (0, 0, 2, (-2), 1, 1290, 1, (-700), 0);
   (2, 0, 0, (-2), 0, 480, 0, 10, 0);
   (0, 0, 2, (-2), 0, (-220), 0, 0, 0);
   (0, 2, 0, 0, 0, 170, (-1), 0, 0);
   (0, 1, 0, 0, 1, (-150), 0, 90, 0);
   (0, 2, 2, (-2), 2, (-160), 1, 70, 0);
   (0, (-1), 0, 0, 1, (-120), 0, 60, 0);
   ((-2), 0, 0, 2, 1, (-60), 0, 30, 0);
   (0, (-1), 2, (-2), 1, (-50), 0, 30, 0);
   (2, 0, 0, (-2), 1, 40, 0, (-20), 0);
   (0, 1, 2, (-2), 1, 40, 0, (-20), 0);
   (1, 0, 0, (-1), 0, (-40), 0, 0, 0);
   (2, 1, 0, (-2), 0, 10, 0, 0, 0);
   (0, 0, (-2), 2, 1, 10, 0, 0, 0);
   (0, 1, (-2), 2, 0, (-10), 0, 0, 0);
   (0, 1, 0, 0, 2, 10, 0, 0, 0);
   ((-1), 0, 0, 1, 1, 10, 0, 0, 0);
   (0, 1, 2, (-2), 0, (-10), 0, 0, 0);
   (0, 0, 2, 0, 2, (-22740), (-2), 9770, (-5));
   (1, 0, 0, 0, 0, 7120, 1, (-70), 0);
   (0, 0, 2, 0, 1, (-3860), (-4), 2000, 0);
   (1, 0, 2, 0, 2, (-3010), 0, 1290, (-1));
   (1, 0, 0, (-2), 0, (-1580), 0, (-10), 0);
   ((-1), 0, 2, 0, 2, 1230, 0, (-530), 0);
   (0, 0, 0, 2, 0, 630, 0, (-20), 0);
   (1, 0, 0, 0, 1, 630, 1, (-330), 0);
   ((-1), 0, 0, 0, 1, (-580), (-1), 320, 0);
   ((-1), 0, 2, 2, 2, (-590), 0, 260, 0);
   (1, 0, 2, 0, 1, (-510), 0, 270, 0);
   (0, 0, 2, 2, 2, (-380), 0, 160, 0);
   (2, 0, 0, 0, 0, 290, 0, (-10), 0);
   (1, 0, 2, (-2), 2, 290, 0, (-120), 0);
   (2, 0, 2, 0, 2, (-310), 0, 130, 0);
   (0, 0, 2, 0, 0, 260, 0, (-10), 0);
   ((-1), 0, 2, 0, 1, 210, 0, (-100), 0);
   ((-1), 0, 0, 2, 1, 160, 0, (-80), 0);
   (1, 0, 0, (-2), 1, (-130), 0, 70, 0);
   ((-1), 0, 2, 2, 1, (-100), 0, 50, 0);
   (1, 1, 0, (-2), 0, (-70), 0, 0, 0);
   (0, 1, 2, 0, 2, 70, 0, (-30), 0);
   (0, (-1), 2, 0, 2, (-70), 0, 30, 0);
   (1, 0, 2, 2, 2, (-80), 0, 30, 0);
   (1, 0, 0, 2, 0, 60, 0, 0, 0);
   (2, 0, 2, (-2), 2, 60, 0, (-30), 0);
   (0, 0, 0, 2, 1, (-60), 0, 30, 0);
   (0, 0, 2, 2, 1, (-70), 0, 30, 0);
   (1, 0, 2, (-2), 1, 60, 0, (-30), 0);
   (0, 0, 0, (-2), 1, (-50), 0, 30, 0);
   (1, (-1), 0, 0, 0, 50, 0, 0, 0);
   (2, 0, 2, 0, 1, (-50), 0, 30, 0);
   (0, 1, 0, (-2), 0, (-40), 0, 0, 0);
   (1, 0, (-2), 0, 0, 40, 0, 0, 0);
   (0, 0, 0, 1, 0, (-40), 0, 0, 0);
   (1, 1, 0, 0, 0, (-30), 0, 0, 0);
   (1, 0, 2, 0, 0, 30, 0, 0, 0);
   (1, (-1), 2, 0, 2, (-30), 0, 10, 0);
   ((-1), (-1), 2, 2, 2, (-30), 0, 10, 0);
   ((-2), 0, 0, 0, 1, (-20), 0, 10, 0);
   (3, 0, 2, 0, 2, (-30), 0, 10, 0);
   (0, (-1), 2, 2, 2, (-30), 0, 10, 0);
   (1, 1, 2, 0, 2, 20, 0, (-10), 0);
   ((-1), 0, 2, (-2), 1, (-20), 0, 10, 0);
   (2, 0, 0, 0, 1, 20, 0, (-10), 0);
   (1, 0, 0, 0, 2, (-20), 0, 10, 0);
   (3, 0, 0, 0, 0, 20, 0, 0, 0);
   (0, 0, 2, 1, 2, 20, 0, (-10), 0);
   ((-1), 0, 0, 0, 2, 10, 0, (-10), 0);
   (1, 0, 0, (-4), 0, (-10), 0, 0, 0);
   ((-2), 0, 2, 2, 2, 10, 0, (-10), 0);
   ((-1), 0, 2, 4, 2, (-20), 0, 10, 0);
   (2, 0, 0, (-4), 0, (-10), 0, 0, 0);
   (1, 1, 2, (-2), 2, 10, 0, (-10), 0);
   (1, 0, 2, 2, 1, (-10), 0, 10, 0);
   ((-2), 0, 2, 4, 2, (-10), 0, 10, 0);
   ((-1), 0, 4, 0, 2, 10, 0, 0, 0);
   (1, (-1), 0, (-2), 0, 10, 0, 0, 0);
   (2, 0, 2, (-2), 1, 10, 0, (-10), 0);
   (2, 0, 2, 2, 2, (-10), 0, 0, 0);
   (1, 0, 0, 2, 1, (-10), 0, 0, 0);
   (0, 0, 4, (-2), 2, 10, 0, 0, 0);
   (3, 0, 2, (-2), 2, 10, 0, 0, 0);
   (1, 0, 2, (-2), 0, (-10), 0, 0, 0);
   (0, 1, 2, 0, 1, 10, 0, 0, 0);
   ((-1), (-1), 0, 2, 1, 10, 0, 0, 0);
   (0, 0, (-2), 0, 1, (-10), 0, 0, 0);
   (0, 0, 2, (-1), 2, (-10), 0, 0, 0);
   (0, 1, 0, 2, 0, (-10), 0, 0, 0);
   (1, 0, (-2), (-2), 0, (-10), 0, 0, 0);
   (0, (-1), 2, 0, 1, (-10), 0, 0, 0);
   (1, 1, 0, (-2), 1, (-10), 0, 0, 0);
   (1, 0, (-2), 2, 0, (-10), 0, 0, 0);
   (2, 0, 0, 2, 0, 10, 0, 0, 0);
   (0, 0, 2, 4, 2, (-10), 0, 0, 0);
   (0, 1, 0, 1, 0, 10, 0, 0, 0)
  ])%Z.

(** Rotations.cpp 781-800: reduction of a fundamental argument to [0, rev). *)
Definition reduceArg (x : R) : outcome R :=
  let rev := 360 * 3600 in
  r <- fmodc x rev ;;
  Ret (if Rlt_dec r 0 then r + rev else r).

(** Rotations.cpp 806-810: one pass of the loop. *)
Definition nutationStep (l lp F D Om T : R) (s : R * R) (c : Z * Z * Z * Z * Z * Z * Z * Z * Z) : R * R :=
  let '(c0, c1, c2, c3, c4, c5, c6, c7, c8) := c in
  let arg := (IZR c0 * l + IZR c1 * lp + IZR c2 * F + IZR c3 * D + IZR c4 * Om) / Arcs in
  (fst s + (IZR c5 + IZR c6 * T) * sin arg, snd s + (IZR c7 + IZR c8 * T) * cos arg).

(** Rotations.cpp 663-817: (dpsi, deps). *)
Definition nutationAngles (Mjd_Tt : R) : outcome (bool * (R * R)) :=
  let T := (Mjd_Tt - mjdJ2000) / 36525 in
  let T2 := T * T in
  let T3 := T2 * T in
  let rev := 360 * 3600 in
  l <- reduceArg (485866.733 + (1325 * rev + 715922.633) * T + 31.310 * T2 + 0.064 * T3) ;;
  lp <- reduceArg (1287099.804 + (99 * rev + 1292581.224) * T - 0.577 * T2 - 0.012 * T3) ;;
  F <- reduceArg (335778.877 + (1342 * rev + 295263.137) * T - 13.257 * T2 + 0.011 * T3) ;;
  D <- reduceArg (1072261.307 + (1236 * rev + 1105601.328) * T - 6.891 * T2 + 0.019 * T3) ;;
  Om <- reduceArg (450160.280 - (5 * rev + 482890.539) * T + 7.455 * T2 + 0.008 * T3) ;;
  let s := fold_left (nutationStep l lp F D Om T) nutationTable (0, 0) in
  Ret (true, (0.00001 * fst s / Arcs, 0.00001 * snd s / Arcs)).

(** Rotations.cpp 571-573 and 624-625. *)
Definition meanObliquity (Mjd_Tt : R) : R :=
  let T := (Mjd_Tt - mjdJ2000) / 36525 in
  rad * (23.43929111 - (46.8150 + (0.00059 - 0.001813 * T) * T) * T / 3600).

(** Rotations.cpp 567-600. *)
Definition computeNutation (Mjd_Tt : R) (RNutation : mat3) : outcome (bool * mat3) :=
  let ep := meanObliquity Mjd_Tt in
  n <- nutationAngles Mjd_Tt ;;
  let '(ok, (dpsi, deps)) := n in
  if negb ok then Ret (false, RNutation)
  else Ret (true, mmul (mmul (elemX (- ep - deps)) (elemZ (- dpsi))) (elemX ep)).

(** Rotations.cpp 608-614: Greenwich mean sidereal time, in radians. *)
Definition gmsTime (Mjd_Ut1 : R) : outcome R :=
  let secs := 86400 in
  let mjd0 := Rfloor Mjd_Ut1 in
  let Ut1 := secs * (Mjd_Ut1 - mjd0) in
  let t0 := (mjd0 - mjdJ2000) / 36525 in
  let t := (Mjd_Ut1 - mjdJ2000) / 36525 in
  let gmst := 24110.54841 + 8640184.812866 * t0 + 1.002737909350795 * Ut1
              + (0.093104 - 0.0000062 * t) * t * t in
  Ret (2 * PI * (gmst / secs - Rfloor (gmst / secs))).

(** Rotations.cpp 603-638. *)
Definition computeGreenwichHourAngle (Mjd_Ut1 Mjd_Tt : R) (RGha : mat3) : outcome (bool * mat3) :=
  gmsT <- gmsTime Mjd_Ut1 ;;
  n <- nutationAngles Mjd_Tt ;;
  let '(ok, (dpsi, deps)) := n in
  if negb ok then Ret (false, RGha)
  else
    let EqE := dpsi * cos (meanObliquity Mjd_Tt) in
    gsTime <- fmodc (gmsT + EqE) (2 * PI) ;;
    Ret (true, elemZ gsTime).

(** Rotations.cpp 641-660. *)
Definition polarRotation (xPole yPole : R) (RPole : mat3) : bool * mat3 :=
  (true, mmul (elemY (- xPole)) (elemX (- yPole))).

(** Rotations.cpp 155-221.  [eopFile] is not used by the body.  The outputs of
    getCurrentEop are uninitialised locals; they are only read when it returns
    true, so their old value is irrelevant (0 here). *)
Definition computeRJ2k2Ecef (st : RotState) (dateVec : list R) (eopFile : string) (RJ2E : mat3)
  : outcome (bool * mat3) :=
  if negb (Nat.eqb (List.length dateVec) 6) then Ret (false, RJ2E)
  else
    m <- convertDatevec2Mjd dateVec 0 ;;
    let '(ok, mjdUtc) := m in
    if negb ok then Ret (false, RJ2E)
    else
      e <- getCurrentEop st mjdUtc (EO 0 0 0 0 0) ;;
      let '(ok, o) := e in
      if negb ok then Ret (false, RJ2E)
      else
        let Tt_Tai := 32.184 in
        let Utc_Tai := - o_tai o in
        let Tt_Utc := Tt_Tai - Utc_Tai in
        let Mjd_Ut1 := mjdUtc + o_ut1 o / 86400 in
        let Mjd_Tt := mjdUtc + Tt_Utc / 86400 in
        let '(okP, RPrecession) := computePrecession mjdJ2000 Mjd_Tt m3zero in
        if negb okP then Ret (false, RJ2E)
        else
          n <- computeNutation Mjd_Tt m3zero ;;
          let '(okN, RNutation) := n in
          if negb okN then Ret (false, RJ2E)
          else
            g <- computeGreenwichHourAngle Mjd_Ut1 Mjd_Tt m3zero ;;
            let '(okG, RGha) := g in
            if negb okG then Ret (false, RJ2E)
            else
              let '(okR, RPole) := polarRotation (o_xPole o) (o_yPole o) m3zero in
              if negb okR then Ret (false, RJ2E)
              else Ret (true, mmul (mmul (mmul RPole RGha) RNutation) RPrecession).

(** Rotations.cpp 224-289. *)
Definition computeREcef2J2k (st : RotState) (dateVec : list R) (eopFile : string) (RE2J : mat3)
  : outcome (bool * mat3) :=
  if negb (Nat.eqb (List.length dateVec) 6) then Ret (false, RE2J)
  else
    m <- convertDatevec2Mjd dateVec 0 ;;
    let '(ok, mjdUtc) := m in
    if negb ok then Ret (false, RE2J)
    else
      e <- getCurrentEop st mjdUtc (EO 0 0 0 0 0) ;;
      let '(ok, o) := e in
      if negb ok then Ret (false, RE2J)
      else
        let Tt_Tai := 32.184 in
        let Utc_Tai := - o_tai o in
        let Tt_Utc := Tt_Tai - Utc_Tai in
        let Mjd_Ut1 := mjdUtc + o_ut1 o / 86400 in
        let Mjd_Tt := mjdUtc + Tt_Utc / 86400 in
        let '(okP, RPrecession) := computePrecession mjdJ2000 Mjd_Tt m3zero in
        if negb okP then Ret (false, RE2J)
        else
          n <- computeNutation Mjd_Tt m3zero ;;
          let '(okN, RNutation) := n in
          if negb okN then Ret (false, RE2J)
          else
            g <- computeGreenwichHourAngle Mjd_Ut1 Mjd_Tt m3zero ;;
            let '(okG, RGha) := g in
            if negb okG then Ret (false, RE2J)
            else
              let '(okR, RPole) := polarRotation (o_xPole o) (o_yPole o) m3zero in
              if negb okR then Ret (false, RE2J)
              else Ret (true, mtr (mmul (mmul (mmul RPole RGha) RNutation) RPrecession)).
