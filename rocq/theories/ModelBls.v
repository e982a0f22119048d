(** Model of src/filter/BatchLeastSquares.cpp.  Arguments are values and the
    outputs are returned with the bool; aliased arguments are not modelled.
    Eigen's LDLT solver and the two functions the user is told to replace are
    parameters.  std::cout is not modelled.  No proofs here. *)
From Coq Require Import Reals.
From mathcomp Require Import all_ssreflect all_algebra.
From Verif Require Import Base BaseMx ModelEigen ModelKalman.
Set Implicit Arguments.
Unset Strict Implicit.
Unset Printing Implicit Defensive.
Import GRing.Theory.
Local Open Scope ring_scope.
Local Open Scope outcome_scope.

(** A.ldlt().solve(b). *)
Definition solver := dmat -> dvec -> outcome dvec.
(** yx = h(xk): receives xk and the old yx, returns ok and the new yx. *)
Definition predictor := dvec -> dvec -> outcome (bool * dvec).
(** Linearises about xk: receives xk and the old Hk, returns ok and the new Hk. *)
Definition relinearizer := dvec -> dmat -> outcome (bool * dmat).

(** BatchLeastSquares.cpp 234-260. *)
Definition ComputeCostFunction (yk : dvec) (Hk : dmat) (xk : dvec) (J : R) : outcome (bool * R) :=
  if wrong_size Hk (dv_n yk) (dv_n xk) then Ret (false, J)
  else
    hx <- mulv Hk xk ;;
    e <- subv yk hx ;;
    d <- dotv e e ;;
    Ret (true, Rmult (Rdiv 1 2) d).

(** BatchLeastSquares.cpp 263-272 and 275-284, as shipped. *)
Definition shippedPredictor : predictor := fun _ yx => Ret (true, yx).
Definition shippedRelinearizeH : relinearizer := fun _ Hk => Ret (true, Hk).

(** BatchLeastSquares.cpp 18-49. *)
Definition UnweightedLinearLeastSquares (ldlt : solver) (yk : dvec) (Hk : dmat) (xk : dvec) (J : R) :
    outcome (bool * (dvec * R)) :=
  if wrong_size Hk (dv_n yk) (dv_n xk) then Ret (false, (xk, J))
  else if (dm_r Hk < dm_c Hk)%N then Ret (false, (xk, J))
  else
    a <- mul (tr Hk) Hk ;;
    b <- mulv (tr Hk) yk ;;
    xk <- ldlt a b ;;
    r <- ComputeCostFunction yk Hk xk J ;;
    if ~~ r.1 then Ret (false, (xk, r.2)) else Ret (true, (xk, r.2)).

(** BatchLeastSquares.cpp 52-88. *)
Definition WeightedLinearLeastSquares (ldlt : solver) (yk : dvec) (Hk Wk : dmat) (xk : dvec) (J : R) :
    outcome (bool * (dvec * R)) :=
  if wrong_size Hk (dv_n yk) (dv_n xk) then Ret (false, (xk, J))
  else if wrong_size Wk (dv_n yk) (dv_n yk) then Ret (false, (xk, J))
  else if (dm_r Hk < dm_c Hk)%N then Ret (false, (xk, J))
  else
    hw <- mul (tr Hk) Wk ;;
    a <- mul hw Hk ;;
    b <- mulv hw yk ;;
    xk <- ldlt a b ;;
    r <- ComputeCostFunction yk Hk xk J ;;
    if ~~ r.1 then Ret (false, (xk, r.2)) else Ret (true, (xk, r.2)).

(** The variables of the iteration: the arguments Hk, xk, xkp1 and the locals
    yx and res. *)
Record iter := IT { it_H : dmat; it_x : dvec; it_x1 : dvec; it_yx : dvec; it_res : dvec }.

(** BatchLeastSquares.cpp 123-146: the while loop, with fuel.  The bool is false
    when the loop was left by one of the [return false]. *)
Fixpoint unweighted_loop (fuel : nat) (ldlt : solver) (h : predictor) (relin : relinearizer) (yk : dvec) (eps : R)
    (s : iter) : outcome (bool * iter) :=
  if Rlt_dec eps (normv (it_res s)) then
    match fuel with
    | O => NoFuel
    | S fuel =>
        p <- h (it_x s) (it_yx s) ;;
        if ~~ p.1 then Ret (false, IT (it_H s) (it_x s) (it_x1 s) p.2 (it_res s))
        else
          q <- relin (it_x s) (it_H s) ;;
          if ~~ q.1 then Ret (false, IT q.2 (it_x s) (it_x1 s) p.2 (it_res s))
          else
            a <- mul (tr q.2) q.2 ;;
            d <- subv yk p.2 ;;
            b <- mulv (tr q.2) d ;;
            c <- ldlt a b ;;
            x1 <- addv (it_x s) c ;;
            res <- subv x1 (it_x s) ;;
            unweighted_loop fuel ldlt h relin yk eps (IT q.2 x1 x1 p.2 res)
    end
  else Ret (true, s).

(** BatchLeastSquares.cpp 91-157; outputs Hk, xk, xkp1 and J. *)
Definition UnweightedNonlinearLeastSquares (fuel : nat) (ldlt : solver) (h : predictor) (relin : relinearizer)
    (yk : dvec) (Hk : dmat) (xk : dvec) (eps : R) (xkp1 : dvec) (J : R) : outcome (bool * (dmat * dvec * dvec * R)) :=
  if wrong_size Hk (dv_n yk) (dv_n xk) then Ret (false, (Hk, xk, xkp1, J))
  else if dv_n xkp1 != dv_n xk then Ret (false, (Hk, xk, xkp1, J))
  else if (dm_r Hk < dm_c Hk)%N then Ret (false, (Hk, xk, xkp1, J))
  else
    res <- subv xkp1 xk ;;
    r <- unweighted_loop fuel ldlt h relin yk eps (IT Hk xk xkp1 (zerov 0) res) ;;
    let s := r.2 in
    if ~~ r.1 then Ret (false, (it_H s, it_x s, it_x1 s, J))
    else
      c <- ComputeCostFunction yk (it_H s) (it_x1 s) J ;;
      if ~~ c.1 then Ret (false, (it_H s, it_x s, it_x1 s, c.2)) else Ret (true, (it_H s, it_x s, it_x1 s, c.2)).

(** BatchLeastSquares.cpp 197-220. *)
Fixpoint weighted_loop (fuel : nat) (ldlt : solver) (h : predictor) (relin : relinearizer) (yk : dvec) (Wk : dmat) (eps : R)
    (s : iter) : outcome (bool * iter) :=
  if Rlt_dec eps (normv (it_res s)) then
    match fuel with
    | O => NoFuel
    | S fuel =>
        p <- h (it_x s) (it_yx s) ;;
        if ~~ p.1 then Ret (false, IT (it_H s) (it_x s) (it_x1 s) p.2 (it_res s))
        else
          q <- relin (it_x s) (it_H s) ;;
          if ~~ q.1 then Ret (false, IT q.2 (it_x s) (it_x1 s) p.2 (it_res s))
          else
            hw <- mul (tr q.2) Wk ;;
            a <- mul hw q.2 ;;
            d <- subv yk p.2 ;;
            b <- mulv hw d ;;
            c <- ldlt a b ;;
            x1 <- addv (it_x s) c ;;
            res <- subv x1 (it_x s) ;;
            weighted_loop fuel ldlt h relin yk Wk eps (IT q.2 x1 x1 p.2 res)
    end
  else Ret (true, s).

(** BatchLeastSquares.cpp 160-231; outputs Hk, xk, xkp1 and J. *)
Definition WeightedNonlinearLeastSquares (fuel : nat) (ldlt : solver) (h : predictor) (relin : relinearizer)
    (yk : dvec) (Hk : dmat) (xk : dvec) (Wk : dmat) (eps : R) (xkp1 : dvec) (J : R) : outcome (bool * (dmat * dvec * dvec * R)) :=
  if wrong_size Hk (dv_n yk) (dv_n xk) then Ret (false, (Hk, xk, xkp1, J))
  else if dv_n xkp1 != dv_n xk then Ret (false, (Hk, xk, xkp1, J))
  else if (dm_r Hk < dm_c Hk)%N then Ret (false, (Hk, xk, xkp1, J))
  else if wrong_size Wk (dv_n yk) (dv_n yk) then Ret (false, (Hk, xk, xkp1, J))
  else
    res <- subv xkp1 xk ;;
    r <- weighted_loop fuel ldlt h relin yk Wk eps (IT Hk xk xkp1 (zerov 0) res) ;;
    let s := r.2 in
    if ~~ r.1 then Ret (false, (it_H s, it_x s, it_x1 s, J))
    else
      c <- ComputeCostFunction yk (it_H s) (it_x1 s) J ;;
      if ~~ c.1 then Ret (false, (it_H s, it_x s, it_x1 s, c.2)) else Ret (true, (it_H s, it_x s, it_x1 s, c.2)).
