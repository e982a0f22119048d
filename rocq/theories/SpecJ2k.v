(** Specification of the J2000-to-Earth-fixed rotation: frame turns and the
    published polynomials (IAU 1976 precession, IAU 1980 nutation arguments,
    IAU 1982 sidereal time). *)
From Coq Require Import Reals ZArith List.
From Verif Require Import Base BaseVec SpecRot SpecEop.
Import ListNotations.
Open Scope R_scope.

(** Components of [v] in a frame turned by [a] about the axis [n]. *)
Definition turn (n : vec3) (a : R) (v : vec3) : vec3 := rotate n (- a) v.

(** Julian centuries from J2000 (MJD 51544.5). *)
Definition centuries (mjd : R) : R := (mjd - 51544.5) / 36525.

(** IAU 1976 precession from J2000, radians. *)
Definition prec_zeta (T : R) : R := (2306.2181 * T + 0.30188 * T^2 + 0.017998 * T^3) * arcsec.
Definition prec_z (T : R) : R := (2306.2181 * T + 1.09468 * T^2 + 0.018203 * T^3) * arcsec.
Definition prec_theta (T : R) : R := (2004.3109 * T - 0.42665 * T^2 - 0.041833 * T^3) * arcsec.

(** Mean obliquity (Lieske 1977): 23.43929111 degrees at J2000, then arcseconds. *)
Definition obliquity (T : R) : R :=
  23.43929111 * PI / 180 - (46.8150 * T + 0.00059 * T^2 - 0.001813 * T^3) * arcsec.

(** Delaunay arguments in arcseconds, not reduced; a revolution is 1296000''. *)
Definition arg_l (T : R) : R := 485866.733 + (1325 * 1296000 + 715922.633) * T + 31.310 * T^2 + 0.064 * T^3.
Definition arg_lp (T : R) : R := 1287099.804 + (99 * 1296000 + 1292581.224) * T - 0.577 * T^2 - 0.012 * T^3.
Definition arg_F (T : R) : R := 335778.877 + (1342 * 1296000 + 295263.137) * T - 13.257 * T^2 + 0.011 * T^3.
Definition arg_D (T : R) : R := 1072261.307 + (1236 * 1296000 + 1105601.328) * T - 6.891 * T^2 + 0.019 * T^3.
Definition arg_Om (T : R) : R := 450160.280 - (5 * 1296000 + 482890.539) * T + 7.455 * T^2 + 0.008 * T^3.

(** One nutation term: multipliers of the five arguments, then amplitudes (units
    of 1e-5 arcsecond, with their rates per century) in longitude and obliquity. *)
Definition term_arg (T : R) (c : Z * Z * Z * Z * Z * Z * Z * Z * Z) : R :=
  let '(i, j, k, m, n, _, _, _, _) := c in
  (IZR i * arg_l T + IZR j * arg_lp T + IZR k * arg_F T + IZR m * arg_D T + IZR n * arg_Om T) * arcsec.
Definition term_psi (T : R) (c : Z * Z * Z * Z * Z * Z * Z * Z * Z) : R :=
  let '(_, _, _, _, _, p, p', _, _) := c in (IZR p + IZR p' * T) * sin (term_arg T c).
Definition term_eps (T : R) (c : Z * Z * Z * Z * Z * Z * Z * Z * Z) : R :=
  let '(_, _, _, _, _, _, _, e, e') := c in (IZR e + IZR e' * T) * cos (term_arg T c).
Definition Rsum (l : list R) : R := fold_right Rplus 0 l.
Definition series (f : Z * Z * Z * Z * Z * Z * Z * Z * Z -> R) (l : list (Z * Z * Z * Z * Z * Z * Z * Z * Z)) : R :=
  Rsum (map f l).

(** The five largest terms of IAU 1980, in arcseconds. *)
Definition main_psi (T : R) : R :=
  (-17.1996 - 0.01742 * T) * sin (arg_Om T * arcsec)
  + (-1.3187 - 0.00016 * T) * sin ((2 * arg_F T - 2 * arg_D T + 2 * arg_Om T) * arcsec)
  + (-0.2274 - 0.00002 * T) * sin ((2 * arg_F T + 2 * arg_Om T) * arcsec)
  + (0.2062 + 0.00002 * T) * sin (2 * arg_Om T * arcsec)
  + (0.1426 - 0.00034 * T) * sin (arg_lp T * arcsec).
Definition main_eps (T : R) : R :=
  (9.2025 + 0.00089 * T) * cos (arg_Om T * arcsec)
  + (0.5736 - 0.00031 * T) * cos ((2 * arg_F T - 2 * arg_D T + 2 * arg_Om T) * arcsec)
  + (0.0977 - 0.00005 * T) * cos ((2 * arg_F T + 2 * arg_Om T) * arcsec)
  + (-0.0895 + 0.00005 * T) * cos (2 * arg_Om T * arcsec).

(** IAU 1982 Greenwich mean sidereal time, seconds, T centuries of UT1 from J2000. *)
Definition gmst82 (T : R) : R :=
  67310.54841 + (876600 * 3600 + 8640184.812866) * T + 0.093104 * T^2 - 0.0000062 * T^3.

(** Equatorial components of the direction of ecliptic longitude [l] and
    latitude [b] when the obliquity is [e]. *)
Definition ecliptic (e l b : R) : vec3 := rotate ex e (V3 (cos b * cos l) (cos b * sin l) (sin b)).

(** The pole of date seen from J2000: precession and nutation undone. *)
Definition pole_of_date (T dpsi deps : R) : vec3 :=
  turn ez (prec_zeta T) (turn ey (- prec_theta T) (turn ez (prec_z T)
    (ecliptic (obliquity T) (PI/2 - dpsi) (PI/2 - (obliquity T + deps))))).
