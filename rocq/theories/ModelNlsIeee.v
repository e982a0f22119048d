(** The nonlinear least-squares loops of src/filter/BatchLeastSquares.cpp on
    IEEE-754 doubles, with infinities and NaN.  Vectors are lists.  The solution
    of the normal equations and the two functions of the user are parameters.
    Inner products run from left to right.  No proofs here. *)
From Coq Require Import ZArith List Bool.
From Flocq Require Import Core IEEE754.BinarySingleNaN IEEE754.Binary IEEE754.Bits.
From Verif Require Import Base ModelDate ModelGuardFloat.
Import ListNotations.
Local Open Scope nat_scope.
Local Open Scope outcome_scope.

Definition vec64 := list binary64.
(** A matrix: number of columns and the list of rows. *)
Record mat64 := MX64 { m_cols : nat; m_data : list vec64 }.
Definition m_rows (A : mat64) : nat := length (m_data A).

Definition add64 (x y : binary64) : binary64 := b64_plus mode_NE x y.
Definition sub64 (x y : binary64) : binary64 := b64_minus mode_NE x y.
Definition mul64 (x y : binary64) : binary64 := b64_mult mode_NE x y.
(** Entrywise VectorXd operations; sizes that differ are undefined behaviour
    (an assertion in debug builds of Eigen). *)
Definition zip64 (f : binary64 -> binary64 -> binary64) (a b : vec64) : outcome vec64 :=
  if Nat.eqb (length a) (length b) then Ret (map (fun p => f (fst p) (snd p)) (combine a b)) else Undef.
Definition addv64 : vec64 -> vec64 -> outcome vec64 := zip64 add64.
Definition subv64 : vec64 -> vec64 -> outcome vec64 := zip64 sub64.
(** VectorXd::dot and norm. *)
Definition sum64 (l : vec64) : binary64 :=
  match l with [] => B754_zero 53 1024 false | x :: l' => fold_left add64 l' x end.
Definition dot64 (a b : vec64) : binary64 := sum64 (map (fun p => mul64 (fst p) (snd p)) (combine a b)).
Definition norm64 (v : vec64) : binary64 := b64_sqrt mode_NE (dot64 v v).
Definition half64 : binary64 := b64_div mode_NE (doubleOfZ 1) (doubleOfZ 2).

(** BatchLeastSquares.cpp 234-260. *)
Definition cost64 (yk : vec64) (Hk : mat64) (xk : vec64) (J : binary64) : outcome (bool * binary64) :=
  if negb (Nat.eqb (m_rows Hk) (length yk) && Nat.eqb (m_cols Hk) (length xk)) then Ret (false, J)
  else
    e <- subv64 yk (map (fun row => dot64 row xk) (m_data Hk)) ;;
    Ret (true, mul64 half64 (dot64 e e)).

(** The variables of the loop: Hk, xk, xkp1, yx and res. *)
Record iter64 := IT64 { i_H : mat64; i_x : vec64; i_x1 : vec64; i_yx : vec64; i_res : vec64 }.

Section Loop.
(** [solve Hk d] is (Hk.transpose() * Hk).ldlt().solve(Hk.transpose() * d), or the
    weighted form. *)
Variable solve : mat64 -> vec64 -> outcome vec64.
(** The user's functions, as in ModelBls.v. *)
Variable h : vec64 -> vec64 -> outcome (bool * vec64).
Variable relin : vec64 -> mat64 -> outcome (bool * mat64).

(** BatchLeastSquares.cpp 123-146 and 197-220, with fuel.  A comparison with NaN
    is false. *)
Fixpoint nls_loop64 (fuel : nat) (yk : vec64) (eps : binary64) (s : iter64) : outcome (bool * iter64) :=
  if gt64 (norm64 (i_res s)) eps then
    match fuel with
    | O => NoFuel
    | S fuel =>
        p <- h (i_x s) (i_yx s) ;;
        if negb (fst p) then Ret (false, IT64 (i_H s) (i_x s) (i_x1 s) (snd p) (i_res s))
        else
          q <- relin (i_x s) (i_H s) ;;
          if negb (fst q) then Ret (false, IT64 (snd q) (i_x s) (i_x1 s) (snd p) (i_res s))
          else
            d <- subv64 yk (snd p) ;;
            c <- solve (snd q) d ;;
            x1 <- addv64 (i_x s) c ;;
            res <- subv64 x1 (i_x s) ;;
            nls_loop64 fuel yk eps (IT64 (snd q) x1 x1 (snd p) res)
    end
  else Ret (true, s).

(** BatchLeastSquares.cpp 116-155 and 190-229, after the checks; outputs Hk, xk,
    xkp1 and J. *)
Definition nls_body64 (fuel : nat) (yk : vec64) (Hk : mat64) (xk : vec64) (eps : binary64) (xkp1 : vec64) (J : binary64)
  : outcome (bool * (mat64 * vec64 * vec64 * binary64)) :=
  res <- subv64 xkp1 xk ;;
  r <- nls_loop64 fuel yk eps (IT64 Hk xk xkp1 [] res) ;;
  let s := snd r in
  if negb (fst r) then Ret (false, (i_H s, i_x s, i_x1 s, J))
  else
    c <- cost64 yk (i_H s) (i_x1 s) J ;;
    if negb (fst c) then Ret (false, (i_H s, i_x s, i_x1 s, snd c)) else Ret (true, (i_H s, i_x s, i_x1 s, snd c)).

(** BatchLeastSquares.cpp 91-157. *)
Definition UnweightedNonlinear64 (fuel : nat) (yk : vec64) (Hk : mat64) (xk : vec64) (eps : binary64) (xkp1 : vec64) (J : binary64)
  : outcome (bool * (mat64 * vec64 * vec64 * binary64)) :=
  if negb (Nat.eqb (m_rows Hk) (length yk) && Nat.eqb (m_cols Hk) (length xk)) then Ret (false, (Hk, xk, xkp1, J))
  else if negb (Nat.eqb (length xkp1) (length xk)) then Ret (false, (Hk, xk, xkp1, J))
  else if Nat.ltb (m_rows Hk) (m_cols Hk) then Ret (false, (Hk, xk, xkp1, J))
  else nls_body64 fuel yk Hk xk eps xkp1 J.

(** BatchLeastSquares.cpp 160-231; [solve] is the weighted form. *)
Definition WeightedNonlinear64 (fuel : nat) (yk : vec64) (Hk : mat64) (xk : vec64) (Wk : mat64) (eps : binary64) (xkp1 : vec64) (J : binary64)
  : outcome (bool * (mat64 * vec64 * vec64 * binary64)) :=
  if negb (Nat.eqb (m_rows Hk) (length yk) && Nat.eqb (m_cols Hk) (length xk)) then Ret (false, (Hk, xk, xkp1, J))
  else if negb (Nat.eqb (length xkp1) (length xk)) then Ret (false, (Hk, xk, xkp1, J))
  else if Nat.ltb (m_rows Hk) (m_cols Hk) then Ret (false, (Hk, xk, xkp1, J))
  else if negb (Nat.eqb (m_rows Wk) (length yk) && Nat.eqb (m_cols Wk) (length yk)) then Ret (false, (Hk, xk, xkp1, J))
  else nls_body64 fuel yk Hk xk eps xkp1 J.
End Loop.
