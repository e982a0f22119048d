(** Common definitions shared by the model files: call outcomes, checked real
    arithmetic and the few libm functions the code uses.  No proofs here. *)
From Coq Require Import Reals ZArith List.
From Flocq Require Import Core.Raux.
Import ListNotations.
Open Scope R_scope.

(** Result of a C++ call.
    - [Ret v]     : normal return; every double in [v] is finite.
    - [NonFinite] : the call returns, but a division by zero or a libm domain
                    error occurred, so an output holds inf or NaN.
    - [Undef]     : undefined behaviour or a failed Eigen assertion.
    - [Throw]     : an exception leaves the call.
    - [NoFuel]    : a loop exceeded the fuel given to the model. *)
Inductive outcome (A : Type) : Type :=
| Ret (a : A)
| NonFinite
| Undef
| Throw
| NoFuel.
Arguments Ret {A} a.
Arguments NonFinite {A}.
Arguments Undef {A}.
Arguments Throw {A}.
Arguments NoFuel {A}.

Definition bind {A B : Type} (x : outcome A) (k : A -> outcome B) : outcome B :=
  match x with
  | Ret a => k a
  | NonFinite => NonFinite
  | Undef => Undef
  | Throw => Throw
  | NoFuel => NoFuel
  end.

Declare Scope outcome_scope.
Delimit Scope outcome_scope with outcome.
Notation "x <- e ;; k" := (bind e (fun x => k))
  (at level 61, e at next level, right associativity) : outcome_scope.
Open Scope outcome_scope.

(** Comparisons of doubles, as booleans.  The real model has no NaN. *)
Definition Rltb' (x y : R) : bool := if Rlt_dec x y then true else false.
Definition Rleb' (x y : R) : bool := if Rle_dec x y then true else false.
Definition Reqb' (x y : R) : bool := if Req_EM_T x y then true else false.

(** [x / y] of doubles: no finite result when [y = 0]. *)
Definition Rdivc (x y : R) : outcome R :=
  if Req_EM_T y 0 then NonFinite else Ret (x / y).

(** std::sqrt : NaN for a negative argument. *)
Definition sqrtc (x : R) : outcome R :=
  if Rlt_dec x 0 then NonFinite else Ret (sqrt x).

(** std::asin : NaN outside [-1, 1]. *)
Definition asinc (x : R) : outcome R :=
  if Rlt_dec x (-1) then NonFinite
  else if Rlt_dec 1 x then NonFinite else Ret (asin x).

(** std::atan2(y, x), for arguments without signed zeros (the real model has a
    single zero; [atan2(+0, negative)] is pi and [atan2(+0,+0)] is 0). *)
Definition atan2 (y x : R) : R :=
  if Rlt_dec 0 x then atan (y / x)
  else if Rlt_dec x 0 then
    (if Rlt_dec y 0 then atan (y / x) - PI else atan (y / x) + PI)
  else (* x = 0 *)
    if Rlt_dec 0 y then PI / 2
    else if Rlt_dec y 0 then - (PI / 2) else 0.

(** std::fmod(x, y): remainder with the sign of [x]; NaN for [y = 0]. *)
Definition fmodc (x y : R) : outcome R :=
  if Req_EM_T y 0 then NonFinite else Ret (x - IZR (Ztrunc (x / y)) * y).

(** std::floor. *)
Definition Rfloor (x : R) : R := IZR (Zfloor x).

(** Eigen::VectorXd: a list of coefficients.  Eigen::MatrixXd: run-time
    dimensions and an entry function (only indices in range are meaningful). *)
Definition VectorXd := list R.
Record MatrixXd := MX { mx_rows : nat; mx_cols : nat; mx_at : nat -> nat -> R }.
