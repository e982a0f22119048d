(** Eigen's inverse() of a matrix of dynamic size (Eigen/src/LU/InverseImpl.h,
    compute_inverse: partialPivLu().inverse()), which KalmanFilter.cpp 101 and 228
    call, in rounded arithmetic.  Indices are natural numbers; [msub] is
    a - sum x_j y_j over j < k in some order of summation, so that the order of
    the loops and their blocking do not matter.  Underflow and overflow are not
    modelled.  After a zero pivot the solution divides by zero; here the result is
    [NonFinite].  No proofs. *)
From Coq Require Import Reals Arith.
From Verif Require Import Base ModelLdltFloat.
Open Scope R_scope.

(** PartialPivLU.h, partial_lu_impl::unblocked_lu: the first position of the
    largest size among [v k], ..., [v (k + m)]. *)
Fixpoint biggest (v : nat -> R) (k m : nat) : nat :=
  match m with
  | O => k
  | S m => let q := biggest v k m in if Rlt_dec (Rabs (v q)) (Rabs (v (k + S m)%nat)) then (k + S m)%nat else q
  end.
(** The exchange of rows [k] and [q]. *)
Definition swap (k q i : nat) : nat := if Nat.eqb i k then q else if Nat.eqb i q then k else i.

Section Lu.
Variable r : R -> R.
Variable msub : R -> nat -> (nat -> R) -> (nat -> R) -> R.

(** PartialPivLU.h, partial_lu_impl::unblocked_lu, the first [k] columns: the
    order of the rows, the lower triangle below its diagonal of ones and the upper
    triangle. *)
Fixpoint lu (n : nat) (a : nat -> nat -> R) (k : nat) : outcome ((nat -> nat) * (nat -> nat -> R) * (nat -> nat -> R)) :=
  match k with
  | O => Ret (fun i => i, fun _ _ => 0, fun _ _ => 0)
  | S k =>
      p <- lu n a k ;;
      let '(s, l, u) := p in
      let v i := msub (a (s i) k) k (l i) (fun m => u m k) in
      let q := biggest v k (n - 1 - k) in
      if Req_EM_T (v q) 0 then NonFinite
      else Ret (fun i => s (swap k q i),
                fun i j => if andb (Nat.eqb j k) (Nat.ltb k i) then r (v (swap k q i) / v q) else l (swap k q i) j,
                fun i j => if andb (Nat.eqb i k) (Nat.leb k j) then msub (a (s q) j) k (l q) (fun m => u m j) else u i j)
  end.
(** triangularView<UnitLower>() *)
Definition unit_lower (l : nat -> nat -> R) (i j : nat) : R := if Nat.eqb i j then 1 else if Nat.ltb j i then l i j else 0.
(** TriangularSolverMatrix.h, triangular_solve_matrix<OnTheLeft>, seen from the
    last unknown: the rest of the row is subtracted and the result multiplied by
    the reciprocal of the diagonal. *)
Fixpoint forward_diag (c : nat -> nat -> R) (b : nat -> R) (k : nat) : nat -> R :=
  match k with
  | O => fun _ => 0
  | S k => let y := forward_diag c b k in fun i => if Nat.eqb i k then r (msub (b k) k (c k) y * r (1 / c k k)) else y i
  end.
Definition upper_solve (n : nat) (u : nat -> nat -> R) (z : nat -> R) : nat -> R :=
  let y := forward_diag (fun i j => u (n - 1 - i)%nat (n - 1 - j)%nat) (fun i => z (n - 1 - i)%nat) n in
  fun i => y (n - 1 - i)%nat.
(** PartialPivLU.h, _solve_impl with one column [b] of the right-hand side. *)
Definition lu_solve (n : nat) (s : nat -> nat) (l u : nat -> nat -> R) (b : nat -> R) : nat -> R :=
  upper_solve n u (forward msub (unit_lower l) (fun i => b (s i)) n).
(** InverseImpl.h: the solution for the columns of the identity. *)
Definition lu_inverse (n : nat) (a : nat -> nat -> R) : outcome (nat -> nat -> R) :=
  p <- lu n a n ;;
  let '(s, l, u) := p in
  Ret (fun i j => lu_solve n s l u (fun m => if Nat.eqb m j then 1 else 0) i).
End Lu.
