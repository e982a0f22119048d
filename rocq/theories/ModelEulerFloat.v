(** Attitude::dcm2Euler in rounded arithmetic: each operation is followed by a
    rounding, negation and the comparisons are exact; std::atan and std::asin
    are parameters.  Overflow and the sign of zero are not modelled.  No proofs
    here. *)
From Coq Require Import Reals.
From Verif Require Import Base BaseVec ModelDate ModelStrapdownFloat.
Open Scope R_scope.

(** Attitude.cpp 258-295.  [euler] is the old value of the output.  The literal
    1e-9 and M_PI are rounded values; the second guard keeps std::asin within
    its domain. *)
Definition dcm2Euler_f (F : FloatOps) (atan_f asin_f : R -> R) (RB2N : mat3) (euler : vec3) : outcome (bool * vec3) :=
  let r := frnd F in
  if orb (Rltb' (Rabs (m11 RB2N)) (r (1 / 1000000000))) (Rltb' (Rabs (m33 RB2N)) (r (1 / 1000000000)))
  then Ret (false, euler)
  else if orb (Rltb' 1 (m13 RB2N)) (Rltb' (m13 RB2N) (-1))
  then Ret (false, euler)
  else
    t1 <- Rdivc (m23 RB2N) (m33 RB2N) ;;
    t3 <- Rdivc (m12 RB2N) (m11 RB2N) ;;
    let e3 := atan_f (r t3) in
    let e3' := if Rlt_dec e3 0 then r (e3 + r PI) else e3 in
    Ret (true, V3 (atan_f (r t1)) (- asin_f (m13 RB2N)) e3').

(** std::atan and std::asin correctly rounded. *)
Definition atan_64 (x : R) : R := rnd64 (atan x).
Definition asin_64 (x : R) : R := rnd64 (asin x).
