(** Unweighted least squares of src/filter/BatchLeastSquares.cpp on a store of
    vector and matrix objects: arguments are references, and several may be the
    same object.  An assignment evaluates its right-hand side before writing
    (Eigen evaluates the solution of a linear system into a temporary; sums are
    taken entry by entry).  J is an object of its own.  std::cout is not modelled.
    No proofs here. *)
From Coq Require Import Reals.
From mathcomp Require Import all_ssreflect all_algebra.
From Verif Require Import Base BaseMx ModelEigen ModelKalman ModelBls.
Set Implicit Arguments.
Unset Strict Implicit.
Unset Printing Implicit Defensive.
Local Open Scope ring_scope.
Local Open Scope outcome_scope.

(** BatchLeastSquares.cpp 18-49. *)
Definition UnweightedLinear_at (ldlt : solver) (yk Hk xk : nat) (J : R) (s : store) : outcome (bool * (store * R)) :=
  if wrong_size (mats s Hk) (dv_n (vecs s yk)) (dv_n (vecs s xk)) then Ret (false, (s, J))
  else if (dm_r (mats s Hk) < dm_c (mats s Hk))%N then Ret (false, (s, J))
  else
    a <- mul (tr (mats s Hk)) (mats s Hk) ;;
    b <- mulv (tr (mats s Hk)) (vecs s yk) ;;
    x <- ldlt a b ;;
    let s := setv s xk x in
    r <- ComputeCostFunction (vecs s yk) (mats s Hk) (vecs s xk) J ;;
    if ~~ r.1 then Ret (false, (s, r.2)) else Ret (true, (s, r.2)).

(** BatchLeastSquares.cpp 123-146: the while loop, with fuel; [yx] and [res] are
    local variables. *)
Fixpoint unweighted_loop_at (fuel : nat) (ldlt : solver) (h : predictor) (relin : relinearizer) (yk Hk xk xkp1 : nat) (eps : R)
    (yx res : dvec) (s : store) : outcome (bool * store) :=
  if Rlt_dec eps (normv res) then
    match fuel with
    | O => NoFuel
    | S fuel =>
        p <- h (vecs s xk) yx ;;
        if ~~ p.1 then Ret (false, s)
        else
          q <- relin (vecs s xk) (mats s Hk) ;;
          let s := setm s Hk q.2 in
          if ~~ q.1 then Ret (false, s)
          else
            a <- mul (tr (mats s Hk)) (mats s Hk) ;;
            d <- subv (vecs s yk) p.2 ;;
            b <- mulv (tr (mats s Hk)) d ;;
            c <- ldlt a b ;;
            x1 <- addv (vecs s xk) c ;;
            let s := setv s xkp1 x1 in
            res <- subv (vecs s xkp1) (vecs s xk) ;;
            let s := setv s xk (vecs s xkp1) in
            unweighted_loop_at fuel ldlt h relin yk Hk xk xkp1 eps p.2 res s
    end
  else Ret (true, s).

(** BatchLeastSquares.cpp 91-157. *)
Definition UnweightedNonlinear_at (fuel : nat) (ldlt : solver) (h : predictor) (relin : relinearizer)
    (yk Hk xk : nat) (eps : R) (xkp1 : nat) (J : R) (s : store) : outcome (bool * (store * R)) :=
  if wrong_size (mats s Hk) (dv_n (vecs s yk)) (dv_n (vecs s xk)) then Ret (false, (s, J))
  else if dv_n (vecs s xkp1) != dv_n (vecs s xk) then Ret (false, (s, J))
  else if (dm_r (mats s Hk) < dm_c (mats s Hk))%N then Ret (false, (s, J))
  else
    res <- subv (vecs s xkp1) (vecs s xk) ;;
    r <- unweighted_loop_at fuel ldlt h relin yk Hk xk xkp1 eps (zerov 0) res s ;;
    let s := r.2 in
    if ~~ r.1 then Ret (false, (s, J))
    else
      c <- ComputeCostFunction (vecs s yk) (mats s Hk) (vecs s xkp1) J ;;
      if ~~ c.1 then Ret (false, (s, c.2)) else Ret (true, (s, c.2)).
