(** Theorem C155: the matrix inversion of the measurement update in double
    arithmetic, and the update with it. *)
From Coq Require Import Reals Lra.
From mathcomp Require Import all_ssreflect all_algebra.
From Verif Require Import Base BaseMx ModelEigen ModelKalman ModelDate ModelLdltFloat ModelLuFloat ModelLuMx ModelFilterFloat ModelUpdateFloat SpecFloatOps SpecKalman SpecBls SpecLdltFloat SpecFilterFloat SpecUpdateFloat SpecLuFloat
  ProofUpdateFloat ProofLdlt8 ProofLuMx ProofLuCase.
Set Implicit Arguments.
Unset Strict Implicit.
Unset Printing Implicit Defensive.
Import GRing.Theory.
Local Open Scope ring_scope.

(** C155: if every vector keeps at least the share [s] of its length, and [s] is
    well above the rounding errors, the elimination never meets a zero pivot and
    the product with the result is the identity up to rounding. *)
Theorem C155_residual : forall n (A : 'M[R]_n) s r msub M,
  rel_ok r -> msub_ok msub -> Rle (INR n) 1000000 -> keeps s A -> (forall i j, Rle (Rabs (A i j)) M) -> Rle 0 M ->
  let e := Rmult (Rmult 7 (Rmult (INR n + 2) u64)) (Rmult (pow 2 n) M) in Rlt (Rmult (INR n) e) s ->
  exists X, lu_mx r msub A = Ret X /\
  forall i j, Rle (Rabs (Rminus ((A *m X) i j) ((1%:M : 'M[R]_n) i j))) (Rmult e (\sum_m Rabs (X m j))).
Proof. move=> n A s r msub M Hr Hs Hn KA AM M0 e F. exact: (mx_residual KA Hr Hs Hn AM M0 F). Qed.
Print Assumptions C155_residual.

(** So the result is near the inverse. *)
Theorem C155_inverse : forall n (A : 'M[R]_n) s r msub M,
  rel_ok r -> msub_ok msub -> Rle (INR n) 1000000 -> keeps s A -> Rlt 0 s -> (forall i j, Rle (Rabs (A i j)) M) -> Rle 0 M ->
  let e := Rmult (Rmult 7 (Rmult (INR n + 2) u64)) (Rmult (pow 2 n) M) in Rle (Rmult 2 (Rmult (INR n) e)) s ->
  A \in unitmx /\ exists X, lu_mx r msub A = Ret X /\
  forall i j, Rle (Rabs (Rminus (X i j) (invmx A i j))) (Rdiv (Rmult 2 (Rmult (INR n) e)) (Rmult s s)).
Proof. move=> n A s r msub M Hr Hs Hn KA s0 AM M0 e F. split; [exact: (keeps_unit KA s0)|exact: (mx_dist KA s0 Hr Hs Hn AM M0 F)]. Qed.
Print Assumptions C155_inverse.

(** The measurement update with this inversion succeeds where the exact one does,
    and its gain, mean and covariance are near the exact ones; [Z] bounds the
    sizes of the innovation matrix and [q] is its condition. *)
Theorem C155_update : forall r dot msub N n m (x x1 : 'cV[R]_n) (P P1 : 'M[R]_n) (z : 'cV[R]_m) (H : 'M[R]_(m, n)) (Rk : 'M[R]_m) s Z,
  rel_ok r -> dot_ok dot -> msub_ok msub -> Rle (INR N) 1000000 -> (n <= N)%N -> (m <= N)%N -> symmetric P -> symmetric Rk ->
  let S := H *m P *m H^T + Rk in let v := Rmult (INR N + 1) u64 in
  let q := Rdiv (Rmult (Rmult 24 v) (Rmult (Rmult (INR m) (pow 2 m)) Z)) s in
  keeps s S -> Rlt 0 s -> (forall i j, Rle (innov_size P H Rk i j) Z) -> Rle (Rmult 2 q) 1 ->
  let dK i := Rmult (Rmult (Rdiv 5 2) q) (Rplus (Rdiv (row_size P H i) s) tiny64) in
  exists (xe : 'cV[R]_n) (Pe : 'M[R]_n) (xf : 'cV[R]_n) (Pf : 'M[R]_n) (K : 'M[R]_(n, m)),
  filterUpdate (DV x) (DM P) (DV z) (DM H) (DM Rk) (DV x1) (DM P1) = Ret (true, (DV xe, DM Pe)) /\
  filterUpdate_f r dot (lu_mx r msub) x P z H Rk = Ret (xf, Pf) /\ gain_f r dot (lu_mx r msub) P H Rk = Ret K /\
  (forall i l, Rle (Rabs (Rminus (K i l) ((P *m H^T *m invmx S) i l))) (dK i)) /\
  (forall i, Rle (Rabs (Rminus (xf i ord0) (xe i ord0))) (Rplus (Rmult (Rmult 12 v) (state_size H K x z i ord0)) (Rmult (dK i) (\sum_l Rabs ((z - H *m x)%R l ord0))))) /\
  (forall i j, Rle (Rabs (Rminus (Pf i j) (Pe i j)))
    (Rplus (Rmult (Rmult 21 v) (update_size P H Rk K i j)) (Rmult (Rmult (dK i) (dK j)) (\sum_l \sum_k Rabs (S l k))))).
Proof.
  move=> r dot msub N n m x x1 P P1 z H Rk s Z Hr Hd Hs HN Hn Hm SP SR S v q KS s0 HZ Hq dK.
  exact: (mx_update Hr Hd Hs HN Hn Hm KS s0 HZ Hq x x1 z P1 SP SR).
Qed.
Print Assumptions C155_update.

(** Noise of variance at least [s] in every combination of the measurements keeps
    the innovation matrix away from singular ones, whatever is measured. *)
Theorem C155_noise_is_enough : forall n m (P : 'M[R]_n) (H : 'M[R]_(m, n)) (Rk : 'M[R]_m) s,
  Rle 0 s -> psd P -> (forall y : 'cV[R]_m, Rle (Rmult s (sq y)) (qf Rk y)) -> keeps s (H *m P *m H^T + Rk).
Proof. exact keeps_noise. Qed.
Print Assumptions C155_noise_is_enough.

(** A matrix with a zero in the first place is inverted: the rows are exchanged. *)
Example C155_zero_in_the_corner : exists X, lu_mx rnd53 (msub_loop rnd53) anti2 = Ret X /\ Rle (Rabs (X 0 0)) (Rdiv 1 1000000000000) /\ Rle (Rabs (Rminus (X 0 1) (Rdiv 1 2))) (Rdiv 1 1000000000000) /\
  Rle (Rabs (Rminus (X 1 0) 1)) (Rdiv 1 1000000000000) /\ Rle (Rabs (X 1 1)) (Rdiv 1 1000000000000).
Proof. exact anti_case. Qed.

(** Two states with covariance 2 1 1 1, both measured with variance 1. *)
Example C155_case : exists K, gain_f rnd53 (@dot_loop rnd53) (lu_mx rnd53 (msub_loop rnd53)) P2 one2 one2 = Ret K /\
  Rle (Rabs (Rminus (K 0 0) (Rdiv 3 5))) (Rdiv 1 100000000000) /\ Rle (Rabs (Rminus (K 0 1) (Rdiv 1 5))) (Rdiv 1 100000000000).
Proof. exact gain_case. Qed.
