(** Model of the J2000 / ECEF rotation of src/util/Rotations.cpp (155-289,
    531-876) with every operation rounded.  The arithmetic is a parameter, as in
    ModelStrapdownFloat.v.  Decimal constants are rounded; integers, 51544.5 and
    their products below 2^53 are exact, and so are negation, floor and fmod.
    No proofs here. *)
From Coq Require Import Reals ZArith List String Bool.
From Verif Require Import Base BaseVec ModelDate ModelEop ModelJ2k ModelHourFloat ModelStrapdownFloat.
Import ListNotations.
Open Scope R_scope.

Section Float.
Variable F : FloatOps.
Let r := frnd F.

(** Rotations.hpp 268-269: [3600.0 * 180 / M_PI] and [M_PI / 180.0]. *)
Definition Arcs_f : R := r (3600 * 180 / r PI).
Definition rad_f : R := r (r PI / 180).

(** Rotations.cpp 543-556, 585-593, 627-629, 648-653. *)
Definition elemX_f (a : R) : mat3 := M3 1 0 0  0 (fcos F a) (fsin F a)  0 (- fsin F a) (fcos F a).
Definition elemY_f (a : R) : mat3 := M3 (fcos F a) 0 (- fsin F a)  0 1 0  (fsin F a) 0 (fcos F a).
Definition elemZ_f (a : R) : mat3 := M3 (fcos F a) (fsin F a) 0  (- fsin F a) (fcos F a) 0  0 0 1.

(** Rotations.cpp 536-545. *)
Definition precessionAngles_f (mjd1 mjd2 : R) : outcome (R * R * R) :=
  let T := r (r (mjd1 - mjdJ2000) / 36525) in
  let dT := r (r (mjd2 - mjd1) / 36525) in
  zeta <- Rdivc (r (r (r (r 2306.2181 + r (r (r 1.39656 - r (r 0.000139 * T)) * T))
                 + r (r (r (r 0.30188 - r (r 0.000344 * T)) + r (r 0.017998 * dT)) * dT)) * dT)) Arcs_f ;;
  w <- Rdivc (r (r (r (r (r 0.79280 + r (r 0.000411 * T)) + r (r 0.000205 * dT)) * dT) * dT)) Arcs_f ;;
  theta <- Rdivc (r (r (r (r 2004.3109 - r (r (r 0.85330 + r (r 0.000217 * T)) * T))
                  - r (r (r (r 0.42665 + r (r 0.000217 * T)) + r (r 0.041833 * dT)) * dT)) * dT)) Arcs_f ;;
  Ret (r zeta, r (r zeta + r w), r theta).

(** Rotations.cpp 531-564. *)
Definition computePrecession_f (mjd1 mjd2 : R) : outcome mat3 :=
  a <- precessionAngles_f mjd1 mjd2 ;;
  let '(zeta, z, theta) := a in
  Ret (mmul_f F (mmul_f F (elemZ_f (- z)) (elemY_f theta)) (elemZ_f (- zeta))).

(** Rotations.cpp 781-800: reduction of a fundamental argument. *)
Definition reduceArg_f (x : R) : outcome R :=
  let rev := 360 * 3600 in
  y <- fmodc x rev ;;
  Ret (if Rlt_dec y 0 then r (y + rev) else y).

(** Rotations.cpp 806-810: one pass of the loop. *)
Definition nutationStep_f (l lp Fa D Om T : R) (s : R * R) (c : Z * Z * Z * Z * Z * Z * Z * Z * Z) : R * R :=
  let '(c0, c1, c2, c3, c4, c5, c6, c7, c8) := c in
  let arg := r (r (r (r (r (r (IZR c0 * l) + r (IZR c1 * lp)) + r (IZR c2 * Fa)) + r (IZR c3 * D)) + r (IZR c4 * Om)) / Arcs_f) in
  (r (fst s + r (r (IZR c5 + r (IZR c6 * T)) * fsin F arg)), r (snd s + r (r (IZR c7 + r (IZR c8 * T)) * fcos F arg))).

(** Rotations.cpp 663-817: (dpsi, deps). *)
Definition nutationAngles_f (Mjd_Tt : R) : outcome (R * R) :=
  let T := r (r (Mjd_Tt - mjdJ2000) / 36525) in
  let T2 := r (T * T) in
  let T3 := r (T2 * T) in
  let rev := 360 * 3600 in
  l <- reduceArg_f (r (r (r (r 485866.733 + r (r (1325 * rev + r 715922.633) * T)) + r (r 31.310 * T2)) + r (r 0.064 * T3))) ;;
  lp <- reduceArg_f (r (r (r (r 1287099.804 + r (r (99 * rev + r 1292581.224) * T)) - r (r 0.577 * T2)) - r (r 0.012 * T3))) ;;
  Fa <- reduceArg_f (r (r (r (r 335778.877 + r (r (1342 * rev + r 295263.137) * T)) - r (r 13.257 * T2)) + r (r 0.011 * T3))) ;;
  D <- reduceArg_f (r (r (r (r 1072261.307 + r (r (1236 * rev + r 1105601.328) * T)) - r (r 6.891 * T2)) + r (r 0.019 * T3))) ;;
  Om <- reduceArg_f (r (r (r (r 450160.280 - r (r (5 * rev + r 482890.539) * T)) + r (r 7.455 * T2)) + r (r 0.008 * T3))) ;;
  let s := fold_left (nutationStep_f l lp Fa D Om T) nutationTable (0, 0) in
  dpsi <- Rdivc (r (r 0.00001 * fst s)) Arcs_f ;;
  deps <- Rdivc (r (r 0.00001 * snd s)) Arcs_f ;;
  Ret (r dpsi, r deps).

(** Rotations.cpp 571-573 and 624-625. *)
Definition meanObliquity_f (Mjd_Tt : R) : R :=
  let T := r (r (Mjd_Tt - mjdJ2000) / 36525) in
  r (rad_f * r (r 23.43929111 - r (r (r (r 46.8150 + r (r (r 0.00059 - r (r 0.001813 * T)) * T)) * T) / 3600))).

(** Rotations.cpp 567-600. *)
Definition computeNutation_f (Mjd_Tt : R) : outcome mat3 :=
  let ep := meanObliquity_f Mjd_Tt in
  n <- nutationAngles_f Mjd_Tt ;;
  let '(dpsi, deps) := n in
  Ret (mmul_f F (mmul_f F (elemX_f (r (- ep - deps))) (elemZ_f (- dpsi))) (elemX_f ep)).

(** Rotations.cpp 608-632: the angle of the Greenwich hour angle matrix. *)
Definition gsTime_f (Mjd_Ut1 Mjd_Tt : R) : outcome R :=
  gmsT <- gmsTime_f r Mjd_Ut1 ;;
  n <- nutationAngles_f Mjd_Tt ;;
  let EqE := r (fst n * fcos F (meanObliquity_f Mjd_Tt)) in
  fmodc (r (gmsT + EqE)) (r (2 * r PI)).

(** Rotations.cpp 603-638. *)
Definition computeGreenwichHourAngle_f (Mjd_Ut1 Mjd_Tt : R) : outcome mat3 :=
  g <- gsTime_f Mjd_Ut1 Mjd_Tt ;; Ret (elemZ_f g).

(** Rotations.cpp 641-660. *)
Definition polarRotation_f (xPole yPole : R) : mat3 := mmul_f F (elemY_f (- xPole)) (elemX_f (- yPole)).

(** Rotations.cpp 820-876.  The five output arguments, or nothing when the
    function returns false. *)
Definition getCurrentEop_f (st : RotState) (mjd : R) : outcome (option EopOut) :=
  if negb (eopsSet st) then Ret None
  else
    let t := eops st in
    let mjdStart := Rfloor mjd in
    match findIndex mjdStart (e_mjd t) with
    | None => Ret None
    | Some idx =>
        preXPole <- at_ (e_xPole t) idx ;;
        preYPole <- at_ (e_yPole t) idx ;;
        preUt1 <- at_ (e_ut1 t) idx ;;
        preLod <- at_ (e_lod t) idx ;;
        preTai <- at_ (e_tai t) idx ;;
        let idx := if Nat.eqb idx (List.length (e_mjd t) - 1) then idx else S idx in
        postXPole <- at_ (e_xPole t) idx ;;
        postYPole <- at_ (e_yPole t) idx ;;
        postUt1 <- at_ (e_ut1 t) idx ;;
        postLod <- at_ (e_lod t) idx ;;
        let fixf := r (mjd - mjdStart) in
        let mix pre post := r (pre + r (r (post - pre) * fixf)) in
        xPole <- Rdivc (mix preXPole postXPole) Arcs_f ;;
        yPole <- Rdivc (mix preYPole postYPole) Arcs_f ;;
        Ret (Some (EO (r xPole) (r yPole) (mix preUt1 postUt1) (mix preLod postLod) preTai))
    end.

(** Rotations.cpp 186-217 (and 254-285): the four matrices and their product. *)
Definition frame_f (Mjd_Ut1 Mjd_Tt xPole yPole : R) : outcome mat3 :=
  RPrecession <- computePrecession_f mjdJ2000 Mjd_Tt ;;
  RNutation <- computeNutation_f Mjd_Tt ;;
  RGha <- computeGreenwichHourAngle_f Mjd_Ut1 Mjd_Tt ;;
  let RPole := polarRotation_f xPole yPole in
  Ret (mmul_f F (mmul_f F (mmul_f F RPole RGha) RNutation) RPrecession).

(** Rotations.cpp 155-221. *)
Definition computeRJ2k2Ecef_f (st : RotState) (dateVec : list R) (eopFile : string) (RJ2E : mat3) : outcome (bool * mat3) :=
  if negb (Nat.eqb (List.length dateVec) 6) then Ret (false, RJ2E)
  else
    m <- convertDatevec2Mjd_with r dateVec 0 ;;
    let '(ok, mjdUtc) := m in
    if negb ok then Ret (false, RJ2E)
    else
      e <- getCurrentEop_f st mjdUtc ;;
      match e with
      | None => Ret (false, RJ2E)
      | Some o =>
          let Tt_Utc := r (r 32.184 - - o_tai o) in
          let Mjd_Ut1 := r (mjdUtc + r (o_ut1 o / 86400)) in
          let Mjd_Tt := r (mjdUtc + r (Tt_Utc / 86400)) in
          A <- frame_f Mjd_Ut1 Mjd_Tt (o_xPole o) (o_yPole o) ;;
          Ret (true, A)
      end.

(** Rotations.cpp 224-289: the same with a transpose at the end. *)
Definition computeREcef2J2k_f (st : RotState) (dateVec : list R) (eopFile : string) (RE2J : mat3) : outcome (bool * mat3) :=
  if negb (Nat.eqb (List.length dateVec) 6) then Ret (false, RE2J)
  else
    m <- convertDatevec2Mjd_with r dateVec 0 ;;
    let '(ok, mjdUtc) := m in
    if negb ok then Ret (false, RE2J)
    else
      e <- getCurrentEop_f st mjdUtc ;;
      match e with
      | None => Ret (false, RE2J)
      | Some o =>
          let Tt_Utc := r (r 32.184 - - o_tai o) in
          let Mjd_Ut1 := r (mjdUtc + r (o_ut1 o / 86400)) in
          let Mjd_Tt := r (mjdUtc + r (Tt_Utc / 86400)) in
          A <- frame_f Mjd_Ut1 Mjd_Tt (o_xPole o) (o_yPole o) ;;
          Ret (true, mtr A)
      end.
End Float.
