(** The IAU 1980 theory of nutation as it was published (Seidelmann 1982; Meeus,
    Astronomical Algorithms, chapter 22): the five arguments in degrees, minutes
    and seconds of arc, the amplitudes in units of 0.0001'' and their changes per
    century in units of 0.00001''. *)
From Coq Require Import Reals ZArith List.
From Verif Require Import SpecEop.
Import ListNotations.
Open Scope R_scope.

(** Degrees, minutes and seconds of arc, in radians; a revolution is 360 degrees. *)
Definition dms (d m s : R) : R := (d + m / 60 + s / 3600) * (PI / 180).
Definition revs (n : R) : R := n * (2 * PI).

(** Mean anomalies of the Moon and the Sun, argument of latitude of the Moon,
    elongation of the Moon from the Sun, longitude of the node of the Moon; [T]
    in Julian centuries from J2000. *)
Definition moon_anomaly (T : R) : R :=
  dms 134 57 46.733 + (revs 1325 + dms 198 52 02.633) * T + dms 0 0 31.310 * T^2 + dms 0 0 0.064 * T^3.
Definition sun_anomaly (T : R) : R :=
  dms 357 31 39.804 + (revs 99 + dms 359 03 01.224) * T - dms 0 0 0.577 * T^2 - dms 0 0 0.012 * T^3.
Definition latitude_argument (T : R) : R :=
  dms 93 16 18.877 + (revs 1342 + dms 82 01 03.137) * T - dms 0 0 13.257 * T^2 + dms 0 0 0.011 * T^3.
Definition elongation (T : R) : R :=
  dms 297 51 01.307 + (revs 1236 + dms 307 06 41.328) * T - dms 0 0 6.891 * T^2 + dms 0 0 0.019 * T^3.
Definition node (T : R) : R :=
  dms 125 02 40.280 - (revs 5 + dms 134 08 10.539) * T + dms 0 0 7.455 * T^2 + dms 0 0 0.008 * T^3.

(** One term: multiples of D, M, M', F and the node; amplitude in longitude and
    its change per century; the same for obliquity. *)
Inductive nut_term : Set := term (D M M' F Om A A1 B B1 : Z).
Definition nut_arg (T : R) (t : nut_term) : R :=
  let 'term D M M' F Om _ _ _ _ := t in
  IZR D * elongation T + IZR M * sun_anomaly T + IZR M' * moon_anomaly T + IZR F * latitude_argument T + IZR Om * node T.
Definition nut_psi (T : R) (t : nut_term) : R :=
  let 'term _ _ _ _ _ A A1 _ _ := t in (IZR A * 0.0001 + IZR A1 * 0.00001 * T) * sin (nut_arg T t).
Definition nut_eps (T : R) (t : nut_term) : R :=
  let 'term _ _ _ _ _ _ _ B B1 := t in (IZR B * 0.0001 + IZR B1 * 0.00001 * T) * cos (nut_arg T t).

(** The 106 terms, largest first. *)
Definition iau1980 : list nut_term := (
  [
   term 0 0 0 0 1  (-171996) (-1742)  92025 89;
   term (-2) 0 0 2 2  (-13187) (-16)  5736 (-31);
   term 0 0 0 2 2  (-2274) (-2)  977 (-5);
   term 0 0 0 0 2  2062 2  (-895) 5;
   term 0 1 0 0 0  1426 (-34)  54 (-1);
   term 0 0 1 0 0  712 1  (-7) 0;
   term (-2) 1 0 2 2  (-517) 12  224 (-6);
   term 0 0 0 2 1  (-386) (-4)  200 0;
   term 0 0 1 2 2  (-301) 0  129 (-1);
   term (-2) (-1) 0 2 2  217 (-5)  (-95) 3;
   term (-2) 0 1 0 0  (-158) 0  (-1) 0;
   term (-2) 0 0 2 1  129 1  (-70) 0;
   term 0 0 (-1) 2 2  123 0  (-53) 0;
   term 0 0 1 0 1  63 1  (-33) 0;
   term 2 0 0 0 0  63 0  (-2) 0;
   term 2 0 (-1) 2 2  (-59) 0  26 0;
   term 0 0 (-1) 0 1  (-58) (-1)  32 0;
   term 0 0 1 2 1  (-51) 0  27 0;
   term (-2) 0 2 0 0  48 0  1 0;
   term 0 0 (-2) 2 1  46 0  (-24) 0;
   term 2 0 0 2 2  (-38) 0  16 0;
   term 0 0 2 2 2  (-31) 0  13 0;
   term (-2) 0 1 2 2  29 0  (-12) 0;
   term 0 0 2 0 0  29 0  (-1) 0;
   term 0 0 0 2 0  26 0  (-1) 0;
   term (-2) 0 0 2 0  (-22) 0  0 0;
   term 0 0 (-1) 2 1  21 0  (-10) 0;
   term 0 2 0 0 0  17 (-1)  0 0;
   term 2 0 (-1) 0 1  16 0  (-8) 0;
   term (-2) 2 0 2 2  (-16) 1  7 0;
   term 0 1 0 0 1  (-15) 0  9 0;
   term (-2) 0 1 0 1  (-13) 0  7 0;
   term 0 (-1) 0 0 1  (-12) 0  6 0;
   term 0 0 2 (-2) 0  11 0  0 0;
   term 2 0 (-1) 2 1  (-10) 0  5 0;
   term 2 0 1 2 2  (-8) 0  3 0;
   term 0 1 0 2 2  7 0  (-3) 0;
   term 0 (-1) 0 2 2  (-7) 0  3 0;
   term 2 0 0 2 1  (-7) 0  3 0;
   term (-2) 1 1 0 0  (-7) 0  0 0;
   term 2 0 (-2) 0 1  (-6) 0  3 0;
   term (-2) 0 2 2 2  6 0  (-3) 0;
   term 2 0 0 0 1  (-6) 0  3 0;
   term (-2) 0 1 2 1  6 0  (-3) 0;
   term 2 0 1 0 0  6 0  0 0;
   term (-2) (-1) 0 2 1  (-5) 0  3 0;
   term (-2) 0 0 0 1  (-5) 0  3 0;
   term 0 0 2 2 1  (-5) 0  3 0;
   term 0 (-1) 1 0 0  5 0  0 0;
   term (-2) 0 2 0 1  4 0  (-2) 0;
   term (-2) 1 0 2 1  4 0  (-2) 0;
   term (-1) 0 1 0 0  (-4) 0  0 0;
   term (-2) 1 0 0 0  (-4) 0  0 0;
   term 0 0 1 (-2) 0  4 0  0 0;
   term 1 0 0 0 0  (-4) 0  0 0;
   term 0 0 (-2) 2 2  (-3) 0  1 0;
   term 0 (-1) 1 2 2  (-3) 0  1 0;
   term 2 (-1) (-1) 2 2  (-3) 0  1 0;
   term 0 0 3 2 2  (-3) 0  1 0;
   term 2 (-1) 0 2 2  (-3) 0  1 0;
   term (-1) (-1) 1 0 0  (-3) 0  0 0;
   term 0 1 1 0 0  (-3) 0  0 0;
   term 0 0 1 2 0  3 0  0 0;
   term (-2) (-2) 0 2 1  (-2) 0  1 0;
   term 0 0 (-2) 0 1  (-2) 0  1 0;
   term 0 1 1 2 2  2 0  (-1) 0;
   term (-2) 0 (-1) 2 1  (-2) 0  1 0;
   term 0 0 2 0 1  2 0  (-1) 0;
   term 0 0 1 0 2  (-2) 0  1 0;
   term 1 0 0 2 2  2 0  (-1) 0;
   term 4 0 (-1) 2 2  (-2) 0  1 0;
   term 0 0 3 0 0  2 0  0 0;
   term 0 0 (-1) 0 2  1 0  (-1) 0;
   term 2 0 (-2) 2 2  1 0  (-1) 0;
   term (-2) 1 1 2 2  1 0  (-1) 0;
   term 2 0 1 2 1  (-1) 0  1 0;
   term 4 0 (-2) 2 2  (-1) 0  1 0;
   term (-2) 0 2 2 1  1 0  (-1) 0;
   term 0 0 2 (-2) 1  1 0  0 0;
   term (-2) 1 2 0 0  1 0  0 0;
   term 2 0 0 (-2) 1  1 0  0 0;
   term 2 1 0 (-2) 0  (-1) 0  0 0;
   term 0 1 0 0 2  1 0  0 0;
   term 1 0 (-1) 0 1  1 0  0 0;
   term (-2) 1 0 2 0  (-1) 0  0 0;
   term (-4) 0 1 0 0  (-1) 0  0 0;
   term (-4) 0 2 0 0  (-1) 0  0 0;
   term 0 0 (-1) 4 2  1 0  0 0;
   term (-2) (-1) 1 0 0  1 0  0 0;
   term 2 0 2 2 2  (-1) 0  0 0;
   term 2 0 1 0 1  (-1) 0  0 0;
   term (-2) 0 0 4 2  1 0  0 0;
   term (-2) 0 3 2 2  1 0  0 0;
   term (-2) 0 1 2 0  (-1) 0  0 0;
   term 0 1 0 2 1  1 0  0 0;
   term 2 (-1) (-1) 0 1  1 0  0 0;
   term 0 0 0 (-2) 1  (-1) 0  0 0;
   term (-1) 0 0 2 2  (-1) 0  0 0;
   term 2 1 0 0 0  (-1) 0  0 0;
   term (-2) 0 1 (-2) 0  (-1) 0  0 0;
   term 0 (-1) 0 2 1  (-1) 0  0 0;
   term (-2) 1 1 0 1  (-1) 0  0 0;
   term 2 0 1 (-2) 0  (-1) 0  0 0;
   term 2 0 2 0 0  1 0  0 0;
   term 4 0 0 2 2  (-1) 0  0 0;
   term 1 1 0 0 0  1 0  0 0
  ])%Z.

(** Nutation in longitude and in obliquity, radians. *)
Definition psi1980 (T : R) : R := fold_right Rplus 0 (map (nut_psi T) iau1980) * arcsec.
Definition eps1980 (T : R) : R := fold_right Rplus 0 (map (nut_eps T) iau1980) * arcsec.
