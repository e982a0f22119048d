(** Specification notions about calls of the filter functions: argument sizes,
    histories of calls, and simulated truth ensembles. *)
From Coq Require Import Reals Permutation.
From mathcomp Require Import all_ssreflect all_algebra.
From Verif Require Import Base BaseMx ModelEigen ModelKalman SpecKalman.
Set Implicit Arguments.
Unset Strict Implicit.
Unset Printing Implicit Defensive.
Import GRing.Theory.
Local Open Scope ring_scope.
Local Open Scope outcome_scope.

(** ** Documented sizes *)
Definition has_size (A : dmat) (r c : nat) : Prop := dm_r A = r /\ dm_c A = c.
Definition predict_sizes (xk : dvec) (Pk Phik Qk : dmat) (xkp1 : dvec) (Pkp1 : dmat) : Prop :=
  let n := dv_n xk in
  has_size Pk n n /\ has_size Phik n n /\ has_size Qk n n /\ dv_n xkp1 = n /\ has_size Pkp1 n n.
Definition update_sizes (xk : dvec) (Pk : dmat) (zk : dvec) (H Rk : dmat) (xkp1 : dvec) (Pkp1 : dmat) : Prop :=
  let n := dv_n xk in let m := dv_n zk in
  has_size Pk n n /\ has_size H m n /\ has_size Rk m m /\ dv_n xkp1 = n /\ has_size Pkp1 n n.
Definition ukf_predict_sizes (Wi : dvec) (yi Qk : dmat) (xkp1 : dvec) (Pkp1 : dmat) : Prop :=
  let n := dv_n xkp1 in
  has_size Pkp1 n n /\ dv_n Wi = (2 * n + 1)%N /\ has_size yi n (2 * n + 1) /\ has_size Qk n n.
Definition ukf_update_sizes (xk : dvec) (Pk yi : dmat) (Wi : dvec) (zi : dmat) (zk : dvec) (Rk : dmat)
    (xkp1 : dvec) (Pkp1 : dmat) : Prop :=
  let n := dv_n xk in let m := dv_n zk in
  has_size Pk n n /\ has_size yi n (2 * n + 1) /\ dv_n Wi = (2 * n + 1)%N /\ has_size zi m (2 * n + 1) /\
  has_size Rk m m /\ dv_n xkp1 = n /\ has_size Pkp1 n n.

(** ** Histories *)
(** One filter call on an n-state filter. *)
Inductive op (n : nat) : Type :=
  | Predict (Phi Q : 'M[R]_n)
  | Update (m : nat) (z : 'cV[R]_m) (H : 'M[R]_(m, n)) (Rk : 'M[R]_m).
Arguments Update {n m}.

(** Run the calls in place, stopping at the first that reports failure. *)
Definition call n (o : op n) (x : dvec) (P : dmat) : outcome (bool * (dvec * dmat)) :=
  match o with
  | Predict Phi Q => filterPredict x P (DM Phi) (DM Q) x P
  | Update _ z H Rk => filterUpdate x P (DV z) (DM H) (DM Rk) x P
  end.
Fixpoint run n (h : seq (op n)) (x : dvec) (P : dmat) : outcome (bool * (dvec * dmat)) :=
  match h with
  | [::] => Ret (true, (x, P))
  | o :: h => r <- call o x P ;; if r.1 then run h r.2.1 r.2.2 else Ret r
  end.

(** A call with a valid noise covariance. *)
Definition valid n (o : op n) : Prop :=
  match o with Predict _ Q => psd Q | Update _ _ _ Rk => pd Rk end.
Fixpoint all_valid n (h : seq (op n)) : Prop :=
  match h with [::] => True | o :: h => valid o /\ all_valid h end.

(** The difference [d] of two estimates is at most [c] times the covariance, in
    every direction. *)
Definition within n (c : R) (P : 'M[R]_n) (d : 'cV[R]_n) : Prop :=
  forall v : 'cV[R]_n, Rle (Rmult ((v^T *m d) 0 0) ((v^T *m d) 0 0)) (Rmult c (qf P v)).
(** The true state goes from [t] to [t'] along the history without noise, and
    the measurements are exact. *)
Fixpoint explains n (h : seq (op n)) (t t' : 'cV[R]_n) : Prop :=
  match h with
  | [::] => t' = t
  | Predict Phi _ :: h => explains h (Phi *m t) t'
  | Update _ z H _ :: h => z = H *m t /\ explains h t t'
  end.

(** [worse h h']: h' is h with some updates left out, and with process and
    measurement noises at least as large (measured values may differ). *)
Inductive worse n : seq (op n) -> seq (op n) -> Prop :=
  | worse_nil : worse [::] [::]
  | worse_drop m (z : 'cV[R]_m) H Rk h h' : worse h h' -> worse (Update z H Rk :: h) h'
  | worse_predict Phi Q Q' h h' : loewner Q Q' -> worse h h' -> worse (Predict Phi Q :: h) (Predict Phi Q' :: h')
  | worse_update m (z z' : 'cV[R]_m) H Rk Rk' h h' : loewner Rk Rk' -> worse h h' ->
      worse (Update z H Rk :: h) (Update z' H Rk' :: h').

(** Measurements only, with the information they carry. *)
Record meas (n : nat) : Type := Meas { ms : nat; mz : 'cV[R]_ms; mH : 'M[R]_(ms, n); mR : 'M[R]_ms }.
Arguments Meas {n ms}.
Definition to_op n (m : meas n) : op n := Update (mz m) (mH m) (mR m).
Definition info_mx n (m : meas n) : 'M[R]_n := (mH m)^T *m invmx (mR m) *m mH m.
Definition info_vec n (m : meas n) : 'cV[R]_n := (mH m)^T *m invmx (mR m) *m mz m.

(** ** Truth simulation *)
(** A finite ensemble of true states and filter estimates. *)
Record ens (n : nat) : Type := Ens { idx : finType; wt : idx -> R; tru : idx -> 'cV[R]_n; est : idx -> 'cV[R]_n }.
Arguments Ens {n idx}.
(** One step of the truth: state noise, or measurement with noise; the noise
    is an independent ensemble of mean zero. *)
Inductive event (n : nat) : Type :=
  | Move (J : finType) (q : J -> R) (V : J -> 'cV[R]_n) (Phi : 'M[R]_n)
  | Measure (J : finType) (q : J -> R) (m : nat) (V : J -> 'cV[R]_m) (H : 'M[R]_(m, n)).
Arguments Move {n J}.
Arguments Measure {n J} q {m}.

(** The truth evolves, and each member runs the filter on its own data, the
    filter being given the covariance of the noise. *)
Inductive sim (n : nat) : seq (event n) -> ens n -> 'M[R]_n -> ens n -> 'M[R]_n -> Prop :=
  | sim_nil e P : sim [::] e P e P
  | sim_move (I : finType) (p : I -> R) (t s : I -> 'cV[R]_n) P (J : finType) (q : J -> R) V Phi
      (s' : I * J -> 'cV[R]_n) P' h e'' P'' :
      weights q -> mean q V = 0 ->
      (forall k, filterPredict (DV (s k.1)) (DM P) (DM Phi) (DM (cov q V)) (DV (s k.1)) (DM P) =
                 Ret (true, (DV (s' k), DM P'))) ->
      sim h (Ens (pprod p q) (fun k => Phi *m t k.1 + V k.2) s') P' e'' P'' ->
      sim (Move q V Phi :: h) (Ens p t s) P e'' P''
  | sim_measure (I : finType) (p : I -> R) (t s : I -> 'cV[R]_n) P (J : finType) (q : J -> R) m (V : J -> 'cV[R]_m) H
      (s' : I * J -> 'cV[R]_n) P' h e'' P'' :
      weights q -> mean q V = 0 ->
      (forall k, filterUpdate (DV (s k.1)) (DM P) (DV (H *m t k.1 + V k.2)) (DM H) (DM (cov q V)) (DV (s k.1)) (DM P) =
                 Ret (true, (DV (s' k), DM P'))) ->
      sim h (Ens (pprod p q) (fun k => t k.1) s') P' e'' P'' ->
      sim (Measure q V H :: h) (Ens p t s) P e'' P''.

(** The estimates are unbiased and P is the covariance of their errors. *)
Definition consistent n (e : ens n) (P : 'M[R]_n) : Prop :=
  [/\ weights (@wt n e), mean (@wt n e) (fun i => tru i - est i) = 0 & cov (@wt n e) (fun i => tru i - est i) = P].

(** Noise ensembles a history of updates can be run with. *)
Definition good_event n (v : event n) : Prop :=
  match v with
  | Move J q V _ => [/\ weights q, mean q V = 0 & forall j, Rle 0 (q j)]
  | Measure J q m V _ => [/\ weights q, mean q V = 0, forall j, Rle 0 (q j) & pd (cov q V)]
  end.
Fixpoint good_events n (h : seq (event n)) : Prop :=
  match h with [::] => True | v :: h => good_event v /\ good_events h end.
