(** Theorem C139: the measurement update in double arithmetic, for any number of
    states and measurements. *)
From Coq Require Import Reals Lra.
From mathcomp Require Import all_ssreflect all_algebra.
From Verif Require Import Base BaseMx ModelEigen ModelKalman ModelDate ModelFilterFloat ModelUpdateFloat SpecFloatOps SpecKalman SpecFilterFloat SpecUpdateFloat
  ProofMx ProofFilterFloat ProofUpdateFloat.
Set Implicit Arguments.
Unset Strict Implicit.
Unset Printing Implicit Defensive.
Import GRing.Theory.
Local Open Scope ring_scope.

(** C139: whatever the inversion returns, the computed mean and covariance are
    those of an update with the computed gain, up to a few times N roundings of
    the sizes of the terms; N bounds the numbers of states and measurements. *)
Theorem C139_update_for_the_gain_used : forall r dot N n m inv (x : 'cV[R]_n) (P : 'M[R]_n) (z : 'cV[R]_m) (H : 'M[R]_(m, n)) (Rk : 'M[R]_m) xf Pf,
  rnd_ok r -> dot_ok dot -> Rle (INR N) 1000000 -> (n <= N)%N -> (m <= N)%N -> filterUpdate_f r dot inv x P z H Rk = Ret (xf, Pf) ->
  exists K, gain_f r dot inv P H Rk = Ret K /\
  (forall i, Rle (Rabs (Rminus (xf i ord0) ((x + K *m (z - H *m x))%R i ord0))) (Rmult (Rmult 12 (Rmult (INR N + 1) u64)) (state_size H K x z i ord0))) /\
  (forall i j, Rle (Rabs (Rminus (Pf i j) (((1%:M - K *m H) *m P *m (1%:M - K *m H)^T + K *m Rk *m K^T)%R i j)))
                   (Rmult (Rmult 21 (Rmult (INR N + 1) u64)) (update_size P H Rk K i j))).
Proof. exact update_own_gain. Qed.
Print Assumptions C139_update_for_the_gain_used.

(** So an error D of the gain changes the covariance by D S D^T, which is of
    second order. *)
Theorem C139_gain_errors_are_second_order : forall r dot N n m inv (x x1 xe : 'cV[R]_n) (P P1 Pe : 'M[R]_n) (z : 'cV[R]_m) (H : 'M[R]_(m, n)) (Rk : 'M[R]_m) xf Pf,
  rnd_ok r -> dot_ok dot -> Rle (INR N) 1000000 -> (n <= N)%N -> (m <= N)%N -> symmetric P -> symmetric Rk ->
  filterUpdate (DV x) (DM P) (DV z) (DM H) (DM Rk) (DV x1) (DM P1) = Ret (true, (DV xe, DM Pe)) ->
  filterUpdate_f r dot inv x P z H Rk = Ret (xf, Pf) ->
  exists K, gain_f r dot inv P H Rk = Ret K /\
  let S := H *m P *m H^T + Rk in let D := K - P *m H^T *m invmx S in
  forall i j, Rle (Rabs (Rminus (Pf i j) ((Pe + D *m S *m D^T)%R i j))) (Rmult (Rmult 21 (Rmult (INR N + 1) u64)) (update_size P H Rk K i j)).
Proof. exact update_second_order. Qed.
Print Assumptions C139_gain_errors_are_second_order.

(** And no combination of the states is reported with less than its exact
    variance, up to rounding, however bad the inversion. *)
Theorem C139_never_optimistic : forall r dot N n m inv (x x1 xe : 'cV[R]_n) (P P1 Pe : 'M[R]_n) (z : 'cV[R]_m) (H : 'M[R]_(m, n)) (Rk : 'M[R]_m) xf Pf,
  rnd_ok r -> dot_ok dot -> Rle (INR N) 1000000 -> (n <= N)%N -> (m <= N)%N -> psd P -> psd Rk ->
  filterUpdate (DV x) (DM P) (DV z) (DM H) (DM Rk) (DV x1) (DM P1) = Ret (true, (DV xe, DM Pe)) ->
  filterUpdate_f r dot inv x P z H Rk = Ret (xf, Pf) ->
  exists K, gain_f r dot inv P H Rk = Ret K /\
  forall y, Rle (Rminus (qf Pe y) (Rmult (Rmult 21 (Rmult (INR N + 1) u64)) (qf (update_size P H Rk K) (map_mx Rabs y)))) (qf Pf y).
Proof. exact update_honest. Qed.
Print Assumptions C139_never_optimistic.

(** With one measurement the inversion is a division and the whole error is
    known: [q] is how much cancels in the innovation variance. *)
Theorem C139_one_measurement : forall r dot N n (x x1 : 'cV[R]_n) (P P1 : 'M[R]_n) (z : 'M[R]_1) (H : 'rV[R]_n) (Rk : 'M[R]_1),
  rnd_ok r -> dot_ok dot -> Rle (INR N) 1000000 -> (n <= N)%N -> (1 <= N)%N -> symmetric P ->
  let S := (H *m P *m H^T + Rk) ord0 ord0 in let v := Rmult (INR N + 1) u64 in let q := Rdiv (innov_size P H Rk ord0 ord0) S in
  Rlt 0 S -> Rle S (Rinv tiny64) -> Rle (Rmult (Rmult 100 v) q) 1 ->
  exists (xe : 'cV[R]_n) (Pe : 'M[R]_n) (xf : 'cV[R]_n) (Pf : 'M[R]_n) (K : 'cV[R]_n),
  filterUpdate (DV x) (DM P) (DV z) (DM H) (DM Rk) (DV x1) (DM P1) = Ret (true, (DV xe, DM Pe)) /\
  filterUpdate_f r dot (inv1_f r) x P z H Rk = Ret (xf, Pf) /\ gain_f r dot (inv1_f r) P H Rk = Ret K /\
  let dK i := Rmult (Rmult (Rmult 21 v) q) (Rplus (Rdiv (size_mul P H^T i ord0) S) tiny64) in
  (forall i, Rle (Rabs (Rminus (K i ord0) (Rdiv ((P *m H^T) i ord0) S))) (dK i)) /\
  (forall i j, Rle (Rabs (Rminus (Pf i j) (Pe i j)))
    (Rplus (Rmult (Rmult 21 v) (update_size P H Rk K i j)) (Rmult S (Rmult (dK i) (dK j))))).
Proof. move=> r dot N n x x1 P P1 z H Rk Hr Hd HN Hn H1 SP S v q S0 S1 Hq. exact: (single_update Hr Hd HN Hn H1 S0 S1 Hq x x1 z P1 SP). Qed.
Print Assumptions C139_one_measurement.

(** Without rounding the computed update is the model's. *)
Theorem C139_exact_arithmetic : forall n m (x x1 : 'cV[R]_n) (P P1 : 'M[R]_n) (z : 'cV[R]_m) (H : 'M[R]_(m, n)) (Rk : 'M[R]_m),
  filterUpdate (DV x) (DM P) (DV z) (DM H) (DM Rk) (DV x1) (DM P1) =
  bind (filterUpdate_f id (fun k a b => \sum_(i < k) a i * b i) (fun S => if S \in unitmx then Ret (invmx S) else NonFinite) x P z H Rk)
       (fun y => Ret (true, (DV y.1, DM y.2))).
Proof. exact update_exact. Qed.
Print Assumptions C139_exact_arithmetic.

(** Two states with covariance 2 1 1 1, the first one measured with variance 1:
    the variance of the first state becomes 2/3, in doubles to 1e-13. *)
Example C139_case : forall (x x1 : 'cV[R]_2) (z : 'M[R]_1) (P1 : 'M[R]_2), exists (xe : 'cV[R]_2) (Pe : 'M[R]_2) (xf : 'cV[R]_2) (Pf : 'M[R]_2),
  filterUpdate (DV x) (DM P2) (DV z) (DM H2) (DM R2) (DV x1) (DM P1) = Ret (true, (DV xe, DM Pe)) /\ Pe 0 0 = Rdiv 2 3 /\
  filterUpdate_f rnd64 (@dot_loop rnd64) (inv1_f rnd64) x P2 z H2 R2 = Ret (xf, Pf) /\ Rle (Rabs (Rminus (Pf 0 0) (Rdiv 2 3))) (Rdiv 1 10000000000000).
Proof. exact case_update. Qed.
