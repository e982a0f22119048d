(** Claims about the Kalman filter (src/filter/KalmanFilter.cpp), continued: how
    the initial estimate is forgotten, and what repeated measurements give. *)
From Coq Require Import Reals Lra.
From mathcomp Require Import all_ssreflect all_algebra.
From Verif Require Import Base BaseMx ModelEigen ModelKalman SpecKalman SpecFilter ProofMx ProofKalman ProofKalman2 ProofKalman4 ProofKalman5 ProofFine PropKalman.
Set Implicit Arguments.
Unset Strict Implicit.
Unset Printing Implicit Defensive.
Import GRing.Theory.
Local Open Scope ring_scope.
Local Open Scope outcome_scope.

(** C111: two filters fed the same data from different initial estimates end
    with the same covariance, and their difference measured against it never
    grows. *)
Theorem C111_difference_bounded : forall n (h : seq (op n)) c, Rle 0 c ->
  forall (x y x' y' : 'cV[R]_n) (P P' P'' : 'M[R]_n), all_valid h -> psd P -> within c P (x - y) ->
  run h (DV x) (DM P) = Ret (true, (DV x', DM P')) -> run h (DV y) (DM P) = Ret (true, (DV y', DM P'')) ->
  P'' = P' /\ within c P' (x' - y').
Proof. exact @run_within. Qed.
Print Assumptions C111_difference_bounded.
Theorem C111_distance_shrinks : forall n (h : seq (op n)) (x y x' y' : 'cV[R]_n) (P P' P'' : 'M[R]_n),
  all_valid h -> pd P -> pd P' ->
  run h (DV x) (DM P) = Ret (true, (DV x', DM P')) -> run h (DV y) (DM P) = Ret (true, (DV y', DM P'')) ->
  Rle (qf (invmx P') (x' - y')) (qf (invmx P) (x - y)).
Proof. exact @run_inv. Qed.
Print Assumptions C111_distance_shrinks.
(** With exact data the error of the estimate obeys the same bound. *)
Theorem C111_error_bounded : forall n (h : seq (op n)) c (x t x' t' : 'cV[R]_n) (P P' : 'M[R]_n),
  Rle 0 c -> all_valid h -> psd P -> explains h t t' -> within c P (x - t) ->
  run h (DV x) (DM P) = Ret (true, (DV x', DM P')) -> within c P' (x' - t').
Proof. exact @truth_within. Qed.
Print Assumptions C111_error_bounded.
(** The true state z, first guess 0: one exact measurement halves both the error
    and the variance. *)
Example C111_case (z : 'cV[R]_2) (c : R) : Rle 0 c -> within c 1%:M (0 - z) ->
  explains [:: Update z 1%:M 1%:M] z z /\
  run [:: Update z 1%:M 1%:M] (DV (0 : 'cV[R]_2)) (DM (1%:M : 'M[R]_2)) = Ret (true, (DV (Rdiv 1 2 *: z), DM ((Rdiv 1 2)%:M : 'M[R]_2))) /\
  within c (Rdiv 1 2)%:M (Rdiv 1 2 *: z - z).
Proof.
  move=> C W. have X : explains [:: Update z 1%:M 1%:M] z z by rewrite /= mul1mx.
  have E : run [:: Update z 1%:M 1%:M] (DV (0 : 'cV[R]_2)) (DM (1%:M : 'M[R]_2)) = Ret (true, (DV (Rdiv 1 2 *: z), DM ((Rdiv 1 2)%:M : 'M[R]_2))).
  { have := update_case z. rewrite /= !update_ok. case: ifP => // _ -> //. }
  split=> //; split=> //. have V : all_valid [:: Update z 1%:M 1%:M] by split=> //; exact: (pd1 2).
  exact: (C111_error_bounded C V (pd_psd (pd1 2)) X W E).
Qed.

(** C112: a measurement that determines the whole state bounds the covariance
    whatever the prior, and k of them divide the bound by k. *)
Theorem C112_full_measurement : forall n m (x x1 x' : 'cV[R]_n) (z : 'cV[R]_m) (P P1 P' : 'M[R]_n) (H : 'M[R]_(m, n)) (Rk : 'M[R]_m) (L : 'M[R]_(n, m)),
  psd P -> psd Rk -> L *m H = 1%:M ->
  filterUpdate (DV x) (DM P) (DV z) (DM H) (DM Rk) (DV x1) (DM P1) = Ret (true, (DV x', DM P')) ->
  loewner P' (L *m Rk *m L^T).
Proof. exact @update_full. Qed.
Print Assumptions C112_full_measurement.
Theorem C112_repeated : forall n m (H : 'M[R]_(m, n)) (Rk : 'M[R]_m) (L : 'M[R]_(n, m)) (z : 'cV[R]_m) (zs : seq 'cV[R]_m)
   (x x' : 'cV[R]_n) (P P' : 'M[R]_n), pd Rk -> L *m H = 1%:M -> psd P ->
  run [seq Update z H Rk | z <- z :: zs] (DV x) (DM P) = Ret (true, (DV x', DM P')) ->
  loewner P' (Rinv (INR (size (z :: zs))) *: (L *m Rk *m L^T)).
Proof. exact @average_any_prior. Qed.
Print Assumptions C112_repeated.
(** Three measurements of a two-dimensional state from a prior variance of 10^6. *)
Example C112_case (z1 z2 z3 : 'cV[R]_2) : exists (x' : 'cV[R]_2) (P' : 'M[R]_2),
  run [seq Update z 1%:M 1%:M | z <- [:: z1; z2; z3]] (DV (0 : 'cV[R]_2)) (DM ((IZR 1000000)%:M : 'M[R]_2)) = Ret (true, (DV x', DM P')) /\
  loewner (P' : 'M[R]_2) ((Rdiv 1 3)%:M : 'M[R]_2).
Proof.
  have D := pd1 2. have HP : psd ((IZR 1000000)%:M : 'M[R]_2).
  { apply: scalar_psd. lra. }
  have V : all_valid [seq Update z 1%:M 1%:M | z <- [:: z1; z2; z3]] by [].
  have [x' [P' [E _]]] := C50_histories 0 V HP. exists x', P'. split=> //.
  have := C112_repeated D (mulmx1 1%:M) HP E.
  have -> : (Rdiv 1 3)%:M = Rinv (INR (size [:: z1; z2; z3])) *: 1%:M :> 'M[R]_2.
  { rewrite scalemx1. congr (_%:M). rewrite /=. field. }
  by rewrite !mul1mx trmx1.
Qed.
