(** Model of src/filter/KalmanFilter.cpp.  Arguments are references, so each
    function is modelled on a store of vector and matrix objects and takes the
    addresses of its arguments; several may be the same object.  An assignment
    evaluates its right-hand side before writing (Eigen evaluates products into
    temporaries unless told not to).  std::cout is not modelled and sizes are
    mathematical integers. *)
From Coq Require Import Reals.
From mathcomp Require Import all_ssreflect all_algebra.
From Verif Require Import Base BaseMx ModelEigen.
Set Implicit Arguments.
Unset Strict Implicit.
Unset Printing Implicit Defensive.
Import GRing.Theory.
Local Open Scope ring_scope.
Local Open Scope outcome_scope.

Record store := ST { vecs : nat -> dvec; mats : nat -> dmat }.
Definition setv (s : store) (a : nat) (v : dvec) : store :=
  ST (fun b => if b == a then v else vecs s b) (mats s).
Definition setm (s : store) (a : nat) (A : dmat) : store :=
  ST (vecs s) (fun b => if b == a then A else mats s b).

(** The check (A.rows() != r) || (A.cols() != c). *)
Definition wrong_size (A : dmat) (r c : nat) : bool := (dm_r A != r) || (dm_c A != c).

(** KalmanFilter.cpp 16-58. *)
Definition filterPredict_at (xk Pk Phik Qk xkp1 Pkp1 : nat) (s : store) : outcome (bool * store) :=
  let numStates := dv_n (vecs s xk) in
  if wrong_size (mats s Pk) numStates numStates then Ret (false, s)
  else if wrong_size (mats s Phik) numStates numStates then Ret (false, s)
  else if wrong_size (mats s Qk) numStates numStates then Ret (false, s)
  else if dv_n (vecs s xkp1) != numStates then Ret (false, s)
  else if wrong_size (mats s Pkp1) numStates numStates then Ret (false, s)
  else
    x <- mulv (mats s Phik) (vecs s xk) ;;
    let s := setv s xkp1 x in
    a <- mul (mats s Phik) (mats s Pk) ;;
    b <- mul a (tr (mats s Phik)) ;;
    p <- add b (mats s Qk) ;;
    let s := setm s Pkp1 p in
    Ret (true, s).

(** KalmanFilter.cpp 62-113. *)
Definition filterUpdate_at (xk Pk zk H Rk xkp1 Pkp1 : nat) (s : store) : outcome (bool * store) :=
  let numStates := dv_n (vecs s xk) in
  let numMeas := dv_n (vecs s zk) in
  if wrong_size (mats s Pk) numStates numStates then Ret (false, s)
  else if wrong_size (mats s H) numMeas numStates then Ret (false, s)
  else if wrong_size (mats s Rk) numMeas numMeas then Ret (false, s)
  else if dv_n (vecs s xkp1) != numStates then Ret (false, s)
  else if wrong_size (mats s Pkp1) numStates numStates then Ret (false, s)
  else
    hx <- mulv (mats s H) (vecs s xk) ;;
    nu <- subv (vecs s zk) hx ;;
    ph <- mul (mats s Pk) (tr (mats s H)) ;;
    hp <- mul (mats s H) (mats s Pk) ;;
    hph <- mul hp (tr (mats s H)) ;;
    S <- add hph (mats s Rk) ;;
    Si <- inverse S ;;
    K <- mul ph Si ;;
    kn <- mulv K nu ;;
    x <- addv (vecs s xk) kn ;;
    let s := setv s xkp1 x in
    kh <- mul K (mats s H) ;;
    IKH <- sub (ident numStates) kh ;;
    a <- mul IKH (mats s Pk) ;;
    b <- mul a (tr IKH) ;;
    kr <- mul K (mats s Rk) ;;
    krk <- mul kr (tr K) ;;
    p <- add b krk ;;
    let s := setm s Pkp1 p in
    Ret (true, s).

(** A for loop over i = 0 .. n-1 acting on a value [a]. *)
Fixpoint loop_from {A : Type} (f : nat -> A -> outcome A) (i n : nat) (a : A) : outcome A :=
  match n with
  | O => Ret a
  | S n => b <- f i a ;; loop_from f i.+1 n b
  end.
Definition loop {A : Type} (n : nat) (f : nat -> A -> outcome A) (a : A) : outcome A := loop_from f 0 n a.

(** acc + Wi(i) * (ai.col(i) - am) * (bi.col(i) - bm).transpose() : the loop
    bodies at KalmanFilter.cpp 154, 218 and 224. *)
Definition add_scatter (acc : dmat) (Wi : dvec) (ai : dmat) (am : dvec) (bi : dmat) (bm : dvec) (i : nat) : outcome dmat :=
  w <- coef Wi i ;;
  ca <- colv ai i ;;
  da <- subv ca am ;;
  cb <- colv bi i ;;
  db <- subv cb bm ;;
  add acc (outer (scalev w da) db).

(** KalmanFilter.cpp 117-160.  xkp1 and Pkp1 are updated in place. *)
Definition filterUkfPredict_at (Wi yi Qk xkp1 Pkp1 : nat) (s : store) : outcome (bool * store) :=
  let numStates := dv_n (vecs s xkp1) in
  let nsig := (2 * numStates + 1)%N in
  if wrong_size (mats s Pkp1) numStates numStates then Ret (false, s)
  else if dv_n (vecs s Wi) != nsig then Ret (false, s)
  else if wrong_size (mats s yi) numStates nsig then Ret (false, s)
  else if wrong_size (mats s Qk) numStates numStates then Ret (false, s)
  else
    let s := setv s xkp1 (zerov numStates) in
    s <- loop nsig (fun i s =>
           w <- coef (vecs s Wi) i ;;
           c <- colv (mats s yi) i ;;
           x <- addv (vecs s xkp1) (scalev w c) ;;
           Ret (setv s xkp1 x)) s ;;
    let s := setm s Pkp1 (mats s Qk) in
    s <- loop nsig (fun i s =>
           p <- add_scatter (mats s Pkp1) (vecs s Wi) (mats s yi) (vecs s xkp1) (mats s yi) (vecs s xkp1) i ;;
           Ret (setm s Pkp1 p)) s ;;
    Ret (true, s).

(** KalmanFilter.cpp 164-247.  The check on the size of K is after its
    computation, as in the code. *)
Definition filterUkfUpdate_at (xk Pk yi Wi zi zk Rk xkp1 Pkp1 : nat) (s : store) : outcome (bool * store) :=
  let numStates := dv_n (vecs s xk) in
  let numMeas := dv_n (vecs s zk) in
  let nsig := (2 * numStates + 1)%N in
  if wrong_size (mats s Pk) numStates numStates then Ret (false, s)
  else if wrong_size (mats s yi) numStates nsig then Ret (false, s)
  else if dv_n (vecs s Wi) != nsig then Ret (false, s)
  else if wrong_size (mats s zi) numMeas nsig then Ret (false, s)
  else if wrong_size (mats s Rk) numMeas numMeas then Ret (false, s)
  else if dv_n (vecs s xkp1) != numStates then Ret (false, s)
  else if wrong_size (mats s Pkp1) numStates numStates then Ret (false, s)
  else
    zhat <- loop nsig (fun i z =>
              w <- coef (vecs s Wi) i ;;
              c <- colv (mats s zi) i ;;
              addv z (scalev w c)) (zerov numMeas) ;;
    S <- loop nsig (fun i S => add_scatter S (vecs s Wi) (mats s zi) zhat (mats s zi) zhat i) (mats s Rk) ;;
    T <- loop nsig (fun i T => add_scatter T (vecs s Wi) (mats s yi) (vecs s xk) (mats s zi) zhat i)
           (zeros numStates numMeas) ;;
    Si <- inverse S ;;
    K <- mul T Si ;;
    if wrong_size K numStates numMeas then Ret (false, s)
    else
      nu <- subv (vecs s zk) zhat ;;
      kn <- mulv K nu ;;
      x <- addv (vecs s xk) kn ;;
      let s := setv s xkp1 x in
      ks <- mul K S ;;
      ksk <- mul ks (tr K) ;;
      p <- sub (mats s Pk) ksk ;;
      let s := setm s Pkp1 p in
      Ret (true, s).

(** The calls with all arguments distinct objects: values in, outputs out. *)
Definition outputs (x1 P1 : nat) (r : outcome (bool * store)) : outcome (bool * (dvec * dmat)) :=
  r <- r ;; Ret (r.1, (vecs r.2 x1, mats r.2 P1)).
Definition fresh (vs : seq dvec) (ms : seq dmat) : store :=
  ST (nth (zerov 0) vs) (nth (zeros 0 0) ms).

Definition filterPredict (xk : dvec) (Pk Phik Qk : dmat) (xkp1 : dvec) (Pkp1 : dmat) :=
  outputs 1 3 (filterPredict_at 0 0 1 2 1 3 (fresh [:: xk; xkp1] [:: Pk; Phik; Qk; Pkp1])).
Definition filterUpdate (xk : dvec) (Pk : dmat) (zk : dvec) (H Rk : dmat) (xkp1 : dvec) (Pkp1 : dmat) :=
  outputs 2 3 (filterUpdate_at 0 0 1 1 2 2 3 (fresh [:: xk; zk; xkp1] [:: Pk; H; Rk; Pkp1])).
Definition filterUkfPredict (Wi : dvec) (yi Qk : dmat) (xkp1 : dvec) (Pkp1 : dmat) :=
  outputs 1 2 (filterUkfPredict_at 0 0 1 1 2 (fresh [:: Wi; xkp1] [:: yi; Qk; Pkp1])).
Definition filterUkfUpdate (xk : dvec) (Pk yi : dmat) (Wi : dvec) (zi : dmat) (zk : dvec) (Rk : dmat)
    (xkp1 : dvec) (Pkp1 : dmat) :=
  outputs 3 4 (filterUkfUpdate_at 0 0 1 1 2 2 3 3 4
    (fresh [:: xk; Wi; zk; xkp1] [:: Pk; yi; zi; Rk; Pkp1])).
