(** Eigen's LDLT solver (Eigen/src/Cholesky/LDLT.h: ldlt_inplace<Lower>::unblocked
    and LDLT::_solve_impl), which BatchLeastSquares.cpp 38 and 77 call as
    ldlt().solve(), in rounded arithmetic.  Indices are natural numbers; [msub] is
    a - sum x_j y_j over j < k in some order of summation.  Underflow and overflow
    are not modelled, so that the cut at the smallest positive double before the
    division by a pivot never applies.  After a zero pivot Eigen skips the
    division; here the result is [NonFinite].  No proofs. *)
From Coq Require Import Reals Arith.
From Verif Require Import Base.
Open Scope R_scope.

Section Ldlt.
Variable r : R -> R.
Variable msub : R -> nat -> (nat -> R) -> (nat -> R) -> R.

(** LDLT.h, the loop of ldlt_inplace<Lower>::unblocked after the choice of the
    pivot, for the first [k] columns: the unit lower triangle and the diagonal.
    Row [k] of the triangle times the diagonal goes into [t]. *)
Fixpoint factor (a : nat -> nat -> R) (k : nat) : outcome ((nat -> nat -> R) * (nat -> R)) :=
  match k with
  | O => Ret (fun i j => if Nat.eqb i j then 1 else 0, fun _ => 0)
  | S k =>
      p <- factor a k ;;
      let '(l, d) := p in
      let t j := r (d j * l k j) in
      let dk := msub (a k k) k (l k) t in
      if Req_EM_T dk 0 then NonFinite
      else Ret (fun i j => if andb (Nat.eqb j k) (Nat.ltb k i) then r (msub (a i k) k (l i) t / dk) else l i j,
                fun j => if Nat.eqb j k then dk else d j)
  end.
(** matrixL().solveInPlace(): forward substitution, the first [k] unknowns. *)
Fixpoint forward (l : nat -> nat -> R) (b : nat -> R) (k : nat) : nat -> R :=
  match k with
  | O => fun _ => 0
  | S k => let y := forward l b k in fun i => if Nat.eqb i k then msub (b k) k (l k) y else y i
  end.
(** matrixU().solveInPlace(): backward substitution with the transpose, which is
    forward substitution with rows, columns and unknowns counted from the end. *)
Definition backward (n : nat) (l : nat -> nat -> R) (z : nat -> R) : nat -> R :=
  let y := forward (fun i j => l (n - 1 - j)%nat (n - 1 - i)%nat) (fun i => z (n - 1 - i)%nat) n in
  fun i => y (n - 1 - i)%nat.
(** _solve_impl, for the matrix with rows and columns in pivoting order. *)
Definition ldlt_nat (n : nat) (a : nat -> nat -> R) (b : nat -> R) : outcome (nat -> R) :=
  p <- factor a n ;;
  let '(l, d) := p in
  let y := forward l b n in
  Ret (backward n l (fun i => r (y i / d i))).
End Ldlt.

(** The plain loop for [msub]: the terms are added up, then subtracted. *)
Fixpoint loop_f (r : R -> R) (k : nat) (x y : nat -> R) : R :=
  match k with O => 0 | S k => r (loop_f r k x y + r (x k * y k)) end.
Definition msub_loop (r : R -> R) (a : R) (k : nat) (x y : nat -> R) : R := r (a - loop_f r k x y).
