(** Claims about the Kalman filter (src/filter/KalmanFilter.cpp), continued: how
    fast the start is forgotten, and the steady covariance. *)
From Coq Require Import Reals Lra.
From mathcomp Require Import all_ssreflect all_algebra.
From Verif Require Import Base BaseMx ModelEigen ModelKalman SpecKalman SpecFilter SpecSteady ProofMx ProofKalman ProofKalman2 ProofKalman4 ProofKalman5 ProofFine ProofSteady ProofSteady2 PropKalman.
Set Implicit Arguments.
Unset Strict Implicit.
Unset Printing Implicit Defensive.
Import GRing.Theory.
Local Open Scope ring_scope.
Local Open Scope outcome_scope.

(** C133: if every prediction adds at least d times the covariance it carries
    over, the difference of two estimates, squared and measured against the
    covariance, is divided by 1+d with every prediction. *)
Theorem C133_estimates : forall n (h : seq (op n)) d, Rle 0 d -> forall c (x y x' y' : 'cV[R]_n) (P P' P'' : 'M[R]_n),
  Rle 0 c -> all_valid h -> psd P -> excited d h P -> within c P (x - y) ->
  run h (DV x) (DM P) = Ret (true, (DV x', DM P')) -> run h (DV y) (DM P) = Ret (true, (DV y', DM P'')) ->
  P'' = P' /\ within (Rdiv c (pow (Rplus 1 d) (predictions h))) P' (x' - y').
Proof. exact @run_forgets. Qed.
Print Assumptions C133_estimates.
(** The relative excess of one covariance over another is divided likewise. *)
Theorem C133_covariances : forall n (h : seq (op n)) d, Rle 0 d -> forall a (x y x' y' : 'cV[R]_n) (P1 P2 P1' P2' : 'M[R]_n),
  Rle 0 a -> all_valid h -> psd P1 -> psd P2 -> excited d h P2 -> loewner P1 (Rplus 1 a *: P2) ->
  run h (DV x) (DM P1) = Ret (true, (DV x', DM P1')) -> run h (DV y) (DM P2) = Ret (true, (DV y', DM P2')) ->
  loewner P1' (Rplus 1 (Rdiv a (pow (Rplus 1 d) (predictions h))) *: P2').
Proof. exact @run_ratio. Qed.
Print Assumptions C133_covariances.
(** Where every measurement determines the whole state this needs no condition
    on the covariances, and the initial ones may be anything. *)
Theorem C133_full_excited : forall n (cs : seq (cycle n)) d, Rle 0 d -> all_full d cs -> forall P, psd P -> excited d (cycles cs) P.
Proof. exact @cycles_excited. Qed.
Print Assumptions C133_full_excited.
Theorem C133_full_covariances : forall n (c : cycle n) (cs : seq (cycle n)) d (x y x' y' : 'cV[R]_n) (P1 P2 P1' P2' : 'M[R]_n),
  Rlt 0 d -> all_full d (c :: cs) -> psd P1 -> psd P2 ->
  run (cycles (c :: cs)) (DV x) (DM P1) = Ret (true, (DV x', DM P1')) -> run (cycles (c :: cs)) (DV y) (DM P2) = Ret (true, (DV y', DM P2')) ->
  loewner P1' (Rplus 1 (Rinv (Rmult d (pow (Rplus 1 d) (size cs)))) *: P2').
Proof. exact @cycles_close. Qed.
Print Assumptions C133_full_covariances.
(** Three cycles with process noise 1/2 from the variances 10^6 and 0: the first
    exceeds the second by at most 8/9 of it. *)
Lemma half_full (z : 'cV[R]_2) : full_cycle (Rdiv 1 2) (Cycle z 1%:M 1%:M 1%:M (Rdiv 1 2)%:M).
Proof.
  split=> /=; [exact: pd1|apply: scalar_psd; lra|]. exists 1%:M. rewrite !mul1mx trmx1 !mulmx1. split=> //. rewrite scalemx1. exact: loewner_refl.
Qed.
Lemma half_all zs : all_full (Rdiv 1 2) (constant 1%:M 1%:M 1%:M ((Rdiv 1 2)%:M : 'M[R]_2) zs).
Proof. elim: zs => [|z zs IH] c //= [<-|Hc]; [exact: half_full|exact: IH]. Qed.
Example C133_case (z1 z2 z3 : 'cV[R]_2) : let h := cycles (constant 1%:M 1%:M 1%:M ((Rdiv 1 2)%:M : 'M[R]_2) [:: z1; z2; z3]) in
  exists (x y : 'cV[R]_2) (P1 P2 : 'M[R]_2),
  run h (DV (0 : 'cV[R]_2)) (DM ((IZR 1000000)%:M : 'M[R]_2)) = Ret (true, (DV x, DM P1)) /\
  run h (DV (0 : 'cV[R]_2)) (DM (0 : 'M[R]_2)) = Ret (true, (DV y, DM P2)) /\
  predictions h = 3%N /\ loewner P1 (Rdiv 17 9 *: P2).
Proof.
  move=> h. have A := @half_all [:: z1; z2; z3]. have V : all_valid h by exact: (cycles_valid A).
  have HP : psd ((IZR 1000000)%:M : 'M[R]_2). { apply: scalar_psd. lra. }
  have [x [P1 [E1 _]]] := C50_histories 0 V HP. have [y [P2 [E2 _]]] := C50_histories 0 V (psd0 2).
  exists x, y, P1, P2. split; first exact: E1. split; first exact: E2. split; first by rewrite cycles_predictions. have D : Rlt 0 (Rdiv 1 2) by lra.
  have W : loewner P1 (Rplus 1 (Rinv (Rmult (Rdiv 1 2) (pow (Rplus 1 (Rdiv 1 2)) 2%N))) *: P2) := C133_full_covariances D A HP (psd0 2) E1 E2.
  have X : Rplus 1 (Rinv (Rmult (Rdiv 1 2) (pow (Rplus 1 (Rdiv 1 2)) 2%N))) = Rdiv 17 9 by rewrite /=; field.
  rewrite X in W. exact: W.
Qed.

(** C134: with a constant model, positive definite process noise and
    measurements that determine the whole state, exactly one covariance is
    reproduced by a cycle, and every run approaches it geometrically. *)
Theorem C134_steady_state : forall n m (H : 'M[R]_(m, n)) (Rk : 'M[R]_m) (Phi Q : 'M[R]_n) (L : 'M[R]_(n, m)),
  pd Rk -> pd Q -> L *m H = 1%:M ->
  exists S : 'M[R]_n, pd S /\ steady H Rk Phi Q S /\ (forall T, steady H Rk Phi Q T -> T = S) /\ exists d, Rlt 0 d /\
    forall (z : 'cV[R]_m) zs (x : 'cV[R]_n) (P : 'M[R]_n), psd P -> exists (x' : 'cV[R]_n) (P' : 'M[R]_n),
      run (cycles (constant H Rk Phi Q (z :: zs))) (DV x) (DM P) = Ret (true, (DV x', DM P')) /\
      close (Rinv (Rmult d (pow (Rplus 1 d) (size zs)))) P' S.
Proof. exact @steady_state_pd. Qed.
Print Assumptions C134_steady_state.
(** Any d works for which the process noise is at least d times the noise left
    by a measurement alone; then it need not be definite. *)
Theorem C134_rate : forall n m (H : 'M[R]_(m, n)) (Rk : 'M[R]_m) (Phi Q : 'M[R]_n) (L : 'M[R]_(n, m)) (d : R), pd Rk -> psd Q -> L *m H = 1%:M ->
  Rlt 0 d -> loewner (d *: (Phi *m (L *m Rk *m L^T) *m Phi^T)) Q ->
  exists S : 'M[R]_n, steady H Rk Phi Q S /\ (forall T, steady H Rk Phi Q T -> T = S) /\ loewner Q S /\
    forall (z : 'cV[R]_m) zs (x : 'cV[R]_n) (P : 'M[R]_n), psd P -> exists (x' : 'cV[R]_n) (P' : 'M[R]_n),
      run (cycles (constant H Rk Phi Q (z :: zs))) (DV x) (DM P) = Ret (true, (DV x', DM P')) /\
      close (Rinv (Rmult d (pow (Rplus 1 d) (size zs)))) P' S.
Proof. exact @steady_state. Qed.
Print Assumptions C134_rate.
(** Unit measurement noise and process noise 1/2 have the steady covariance 1,
    and three cycles from any start come within 8/9 of it. *)
Example C134_case (z1 z2 z3 x : 'cV[R]_2) (P : 'M[R]_2) : psd P ->
  steady 1%:M 1%:M 1%:M ((Rdiv 1 2)%:M : 'M[R]_2) 1%:M /\ exists (x' : 'cV[R]_2) (P' : 'M[R]_2),
  run (cycles (constant 1%:M 1%:M 1%:M ((Rdiv 1 2)%:M : 'M[R]_2) [:: z1; z2; z3])) (DV x) (DM P) = Ret (true, (DV x', DM P')) /\
  loewner P' (Rdiv 17 9)%:M /\ loewner 1%:M (Rdiv 17 9 *: P').
Proof.
  move=> HP. have S1 : steady 1%:M 1%:M 1%:M ((Rdiv 1 2)%:M : 'M[R]_2) 1%:M.
  { split; first exact: (pd_psd (pd1 2)). move=> z y. have [y' E] := Fc_run 1%:M 1%:M (Rdiv 1 2)%:M (pd1 2) z y (pd_psd (pd1 2)). exists y'. rewrite E.
    have [_ _ J] := update_inv (update_case 0). rewrite /Fc -J mul1mx trmx1 mulmx1 -raddfD /=.
    have G : Rplus (Rdiv 1 2) (Rdiv 1 2) = R1 by field. by rewrite [_ + _]G. }
  split; first exact: S1. have D : Rlt 0 (Rdiv 1 2) by lra. have HQ : psd ((Rdiv 1 2)%:M : 'M[R]_2) by apply: scalar_psd; lra.
  have B : loewner (Rdiv 1 2 *: (1%:M *m (1%:M *m 1%:M *m 1%:M^T) *m 1%:M^T)) ((Rdiv 1 2)%:M : 'M[R]_2).
  { rewrite !mul1mx trmx1 !mulmx1 scalemx1. exact: loewner_refl. }
  have [S [_ [U [_ C]]]] := C134_rate (pd1 2) HQ (mulmx1 1%:M) D B. rewrite -(U _ S1) in C.
  have [x' [P' [E [C1 C2]]]] := C z1 [:: z2; z3] x P HP. exists x', P'. split; first exact: E.
  have X : Rplus 1 (Rinv (Rmult (Rdiv 1 2) (pow (Rplus 1 (Rdiv 1 2)) (size [:: z2; z3])))) = Rdiv 17 9 by rewrite /=; field.
  rewrite X in C1 C2. rewrite scalemx1 in C1. by split.
Qed.
