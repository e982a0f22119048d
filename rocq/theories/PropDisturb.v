(** Claims about the Kalman filter (src/filter/KalmanFilter.cpp), continued:
    small errors in every call do not pile up. *)
From Coq Require Import Reals Lra.
From mathcomp Require Import all_ssreflect all_algebra.
From Verif Require Import Base BaseMx ModelEigen ModelKalman SpecKalman SpecFilter SpecSteady SpecDisturb ProofMx ProofKalman ProofKalman2 ProofKalman4 ProofKalman5 ProofFine ProofSteady ProofSteady2 ProofDisturb2 PropKalman PropSteady.
Set Implicit Arguments.
Unset Strict Implicit.
Unset Printing Implicit Defensive.
Import GRing.Theory.
Local Open Scope ring_scope.
Local Open Scope outcome_scope.

(** C143: if every call returns a covariance that is off by the fraction e, and
    every prediction adds at least d times the covariance it carries over, with
    at most m measurements in between, the covariances stay within the fixed
    fraction 2 e (m+1) (1 + 1/d) of the exact ones, however long the run; an
    initial difference is forgotten. *)
Theorem C143_covariances : forall n (h : seq (op n)) d e f m a (x y x' y' : 'cV[R]_n) (P1 P2 P1' P2' : 'M[R]_n), Rlt 0 d -> Rle 0 e -> Rle 0 a ->
  let K := Rmult (Rmult (Rmult 2 e) (Rplus (INR m) 1)) (Rplus 1 (Rinv d)) in
  Rlt (Rplus a K) 1 -> all_valid h -> psd P1 -> psd P2 -> excited d h P2 -> spaced m m h -> between a P2 P1 ->
  disturbed e f h x P1 x' P1' -> run h (DV y) (DM P2) = Ret (true, (DV y', DM P2')) ->
  between (Rplus (Rdiv a (pow (Rplus 1 d) (predictions h))) K) P2' P1'.
Proof. exact @covariances_stay. Qed.
Print Assumptions C143_covariances.
(** Where every measurement determines the whole state there is no condition on
    the covariances. *)
Theorem C143_full_measurements : forall n (cs : seq (cycle n)) d e f (x y x' y' : 'cV[R]_n) (P P1' P2' : 'M[R]_n), Rlt 0 d -> Rle 0 e ->
  Rlt (Rmult (Rmult 4 e) (Rplus 1 (Rinv d))) 1 -> all_full d cs -> psd P ->
  disturbed e f (cycles cs) x P x' P1' -> run (cycles cs) (DV y) (DM P) = Ret (true, (DV y', DM P2')) ->
  between (Rmult (Rmult 4 e) (Rplus 1 (Rinv d))) P2' P1'.
Proof. exact @cycles_stay. Qed.
Print Assumptions C143_full_measurements.
(** Without process noise no such bound holds. *)
Theorem C143_without_noise_refuted : forall e, Rlt 0 e ->
  ~ exists K, forall (h : seq (op 1)) (x x' y' : 'cV[R]_1) (P P1' P2' : 'M[R]_1), all_valid h -> psd P -> spaced 0 0 h ->
    disturbed e 0 h x P x' P1' -> run h (DV x) (DM P) = Ret (true, (DV y', DM P2')) -> between K P2' P1'.
Proof. exact @idle_grows. Qed.
Print Assumptions C143_without_noise_refuted.

(** C144: if moreover every call returns an estimate that is off by f standard
    deviations, and no measurement is more than s standard deviations away from
    what the running filter expects, the estimates stay within a fixed fraction
    of a standard deviation of the exact ones. *)
Theorem C144_estimates : forall n (h : seq (op n)) d e f s m (x x' y' : 'cV[R]_n) (P P1' P2' : 'M[R]_n), Rlt 0 d -> Rle 0 e -> Rle 0 f -> Rle 0 s ->
  let K := Rmult (Rmult (Rmult 2 e) (Rplus (INR m) 1)) (Rplus 1 (Rinv d)) in
  let C := Rmult (Rmult (Rmult 4 (Rplus (Rmult K s) f)) (Rplus (INR m) 1)) (Rplus 1 (Rinv d)) in
  Rle K (Rdiv 1 2) -> all_valid h -> psd P -> excited d h P -> spaced m m h ->
  unsurprised e f s h x P x' P1' -> run h (DV x) (DM P) = Ret (true, (DV y', DM P2')) ->
  between K P2' P1' /\ within (Rmult C C) P2' (x' - y').
Proof. exact @estimates_stay. Qed.
Print Assumptions C144_estimates.
(** Every run has a disturbed run beside it, for some bound on the surprise. *)
Theorem C144_runs_exist : forall n (h : seq (op n)) e f, Rle 0 e -> Rle e 1 -> forall (x : 'cV[R]_n) (P : 'M[R]_n), all_valid h -> psd P ->
  exists s (x' : 'cV[R]_n) (P' : 'M[R]_n), Rle 0 s /\ unsurprised e f s h x P x' P'.
Proof. exact @unsurprised_exists. Qed.
Print Assumptions C144_runs_exist.

(** Any number of cycles with process noise 1/2 and unit measurement noise,
    every covariance off by a thousandth and every estimate by a hundredth of a
    standard deviation: the covariances stay within 12 thousandths. *)
Example C143_case (zs : seq 'cV[R]_2) : let h := cycles (constant 1%:M 1%:M 1%:M ((Rdiv 1 2)%:M : 'M[R]_2) zs) in
  exists (x1 x2 : 'cV[R]_2) (P1 P2 : 'M[R]_2), disturbed (Rdiv 1 1000) (Rdiv 1 100) h 0 1%:M x1 P1 /\
    run h (DV (0 : 'cV[R]_2)) (DM (1%:M : 'M[R]_2)) = Ret (true, (DV x2, DM P2)) /\ between (Rdiv 12 1000) P2 P1.
Proof.
  move=> h. have A := @half_all zs. have V : all_valid h by exact: (cycles_valid A). have HP := pd_psd (pd1 2).
  have E0 : Rle 0 (Rdiv 1 1000) by lra. have E1 : Rle (Rdiv 1 1000) 1 by lra. have D : Rlt 0 (Rdiv 1 2) by lra.
  have [s [x1 [P1 [_ U]]]] := C144_runs_exist (Rdiv 1 100) E0 E1 0 V HP. have [x2 [P2 [RU _]]] := C50_histories 0 V HP.
  have DI := unsurprised_disturbed U. exists x1, x2, P1, P2. split; first exact: DI. split; first exact: RU.
  have K : Rmult (Rmult 4 (Rdiv 1 1000)) (Rplus 1 (Rinv (Rdiv 1 2))) = Rdiv 12 1000 by field.
  have K1 : Rlt (Rmult (Rmult 4 (Rdiv 1 1000)) (Rplus 1 (Rinv (Rdiv 1 2)))) 1 by rewrite K; lra.
  have := C143_full_measurements D E0 K1 A HP DI RU. by rewrite K.
Qed.
Example C144_case (zs : seq 'cV[R]_2) : let h := cycles (constant 1%:M 1%:M 1%:M ((Rdiv 1 2)%:M : 'M[R]_2) zs) in
  exists s (x1 x2 : 'cV[R]_2) (P1 P2 : 'M[R]_2), unsurprised (Rdiv 1 1000) (Rdiv 1 100) s h 0 1%:M x1 P1 /\
    run h (DV (0 : 'cV[R]_2)) (DM (1%:M : 'M[R]_2)) = Ret (true, (DV x2, DM P2)) /\
    let C := Rmult 24 (Rplus (Rmult (Rdiv 12 1000) s) (Rdiv 1 100)) in within (Rmult C C) P2 (x1 - x2).
Proof.
  move=> h. have A := @half_all zs. have V : all_valid h by exact: (cycles_valid A). have HP := pd_psd (pd1 2).
  have E0 : Rle 0 (Rdiv 1 1000) by lra. have E1 : Rle (Rdiv 1 1000) 1 by lra. have D : Rlt 0 (Rdiv 1 2) by lra. have F : Rle 0 (Rdiv 1 100) by lra.
  have [s [x1 [P1 [S U]]]] := C144_runs_exist (Rdiv 1 100) E0 E1 0 V HP. have [x2 [P2 [RU _]]] := C50_histories 0 V HP.
  exists s, x1, x2, P1, P2. split; first exact: U. split; first exact: RU.
  have K : Rmult (Rmult (Rmult 2 (Rdiv 1 1000)) (Rplus (INR 1) 1)) (Rplus 1 (Rinv (Rdiv 1 2))) = Rdiv 12 1000 by rewrite /=; field.
  have := C144_estimates D E0 F S. move=> /(_ 2%N h 1%N 0 x1 x2 1%:M P1 P2). cbv zeta. rewrite !K.
  have -> : Rmult (Rmult (Rmult 4 (Rplus (Rmult (Rdiv 12 1000) s) (Rdiv 1 100))) (Rplus (INR 1) 1)) (Rplus 1 (Rinv (Rdiv 1 2))) = Rmult 24 (Rplus (Rmult (Rdiv 12 1000) s) (Rdiv 1 100)) by rewrite /=; field.
  have K2 : Rle (Rdiv 12 1000) (Rdiv 1 2) by lra. have X : excited (Rdiv 1 2) h 1%:M by apply: cycles_excited => //; lra.
  move=> /(_ K2 V HP X (cycles_spaced _) U RU) [_ W]. exact: W.
Qed.
