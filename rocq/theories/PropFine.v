(** Claims about the fine alignment filter (src/inertial/initialization.cpp 47-206). *)
From Coq Require Import Reals Lra.
From mathcomp Require Import all_ssreflect all_algebra.
From Verif Require Import Base BaseMx ModelEigen ModelKalman ModelFine SpecKalman SpecFilter SpecFine ProofMx ProofKalman ProofKalman2 ProofKalman3 ProofKalman4 ProofFine.
Set Implicit Arguments.
Unset Strict Implicit.
Unset Printing Implicit Defensive.
Import GRing.Theory.
Local Open Scope ring_scope.
Local Open Scope outcome_scope.

(** A north gyro bias of 1 seen from the equator, and an azimuth residual of 2. *)
Example fine_predict_case : exists (x' : 'cV[R]_8) (P' : 'M[R]_8),
  fineAlignmentPredict 0 1 1 1 (DV (delta_mx bN 0 : 'cV[R]_8)) (DM (1%:M : 'M[R]_8)) (DV (0 : 'cV[R]_8)) (DM (0 : 'M[R]_8)) =
    Ret (true, (DV x', DM P')) /\ st x' aN = Ropp 1 /\ st x' bN = R0.
Proof.
  have Hc : cos 0 <> R0 by rewrite cos_0; exact: R1_neq_R0.
  have [Phi [E HPhi]] := phi_ok 1 1 Hc R1_neq_R0.
  exists (Phi *m delta_mx bN 0), (Phi *m 1%:M *m Phi^T). split; first by rewrite fpredict_eq E.
  have [H0 [_ [_ [H3 _]]]] := HPhi (delta_mx bN 0). split=> //.
  rewrite H0 /st !mxE /aE /bN /vE !eq8 //= sin_0 mulr1n !mulr0n. toR. lra.
Qed.
Example fine_azimuth_case : exists (x' : 'cV[R]_8) (P' : 'M[R]_8),
  fineAlignmentAzimuthUpdate 3 1 1 1 (DV (0 : 'cV[R]_8)) (DM (1%:M : 'M[R]_8)) (DV (0 : 'cV[R]_8)) (DM (0 : 'M[R]_8)) =
    Ret (true, (DV x', DM P')) /\ st x' aD = R1 /\ P' aD aD = Rdiv 1 2 /\ P' vN vN = R1.
Proof.
  have HS : Rplus ((1%:M : 'M[R]_8) aD aD) (Rmult (Rmult 1 1) 1) <> R0 by rewrite mxE eqxx mulr1n; toR; lra.
  have [x' [P' [E [Ex EP]]]] := faz_ok 3 1 (0 : 'cV[R]_8) (0 : 'cV[R]_8) (0 : 'M[R]_8) HS (trmx1 _ _).
  exists x', P'. split; first exact: E. rewrite /st Ex !EP !mxE !eqxx !mulr1n.
  have -> : (vN == aD) = false by rewrite /vN /aD eq8.
  rewrite mulr0n. toR. split; [|split]; lra.
Qed.

(** C70 *)
Theorem C70_succeeds : forall lat wE g r xk Pk x1 P1, cos lat <> R0 -> r <> R0 ->
  ((exists x' P', fineAlignmentPredict lat wE g r xk Pk x1 P1 = Ret (true, (x', P'))) <-> fine_sizes xk Pk x1 P1).
Proof.
  move=> lat wE g r xk Pk x1 P1 Hc Hr. split.
  - move=> [x' [P' E]]. have : fine_sizes xk Pk x1 P1 \/ ~ fine_sizes xk Pk x1 P1.
    { rewrite /fine_sizes. case: xk Pk x1 P1 {E} => [n ?] [a b ?] [n1 ?] [a1 b1 ?] /=.
      by case: (n =P 8%N) => ?; case: (a =P 8%N) => ?; case: (b =P 8%N) => ?; case: (n1 =P 8%N) => ?; case: (a1 =P 8%N) => ?; case: (b1 =P 8%N) => ?; tauto. }
    case=> // N. by rewrite fpredict_rejects in E.
  - move=> HS. have [x [y [P [Q [-> -> -> ->]]]]] := fine_typed HS. rewrite fpredict_eq.
    have [Phi [-> _]] := phi_ok wE g Hc Hr. by eexists; eexists.
Qed.
Print Assumptions C70_succeeds.
Theorem C70_rejects : forall lat wE g r xk Pk x1 P1, ~ fine_sizes xk Pk x1 P1 ->
  fineAlignmentPredict lat wE g r xk Pk x1 P1 = Ret (false, (x1, P1)).
Proof. exact fpredict_rejects. Qed.
Print Assumptions C70_rejects.
Theorem C70_not_finite : forall lat wE g r xk Pk x1 P1, fine_sizes xk Pk x1 P1 -> cos lat = R0 \/ r = R0 ->
  fineAlignmentPredict lat wE g r xk Pk x1 P1 = NonFinite.
Proof.
  move=> lat wE g r xk Pk x1 P1 HS Hb. have [x [y [P [Q [-> -> -> ->]]]]] := fine_typed HS.
  by rewrite fpredict_eq phi_bad.
Qed.
Print Assumptions C70_not_finite.
(** The "predicted state" is the rate of change of the state, for one linear map
    that also maps the covariance; there is no time step. *)
Theorem C70_predicts_rate : forall lat wE g r, cos lat <> R0 -> r <> R0 ->
  exists Phi : 'M[R]_8, (forall x : 'cV[R]_8, is_rate lat wE g r x (Phi *m x)) /\
  forall (x x1 : 'cV[R]_8) (P P1 : 'M[R]_8),
  fineAlignmentPredict lat wE g r (DV x) (DM P) (DV x1) (DM P1) = Ret (true, (DV (Phi *m x), DM (Phi *m P *m Phi^T))).
Proof.
  move=> lat wE g r Hc Hr. have [Phi [E HPhi]] := phi_ok wE g Hc Hr. exists Phi. split=> // x x1 P P1. by rewrite fpredict_eq E.
Qed.
Print Assumptions C70_predicts_rate.
(** The biases and their covariances become 0 ... *)
Theorem C70_bias_reset : forall lat wE g r (x x1 x' : 'cV[R]_8) (P P1 P' : 'M[R]_8) i, is_bias i ->
  fineAlignmentPredict lat wE g r (DV x) (DM P) (DV x1) (DM P1) = Ret (true, (DV x', DM P')) ->
  st x' i = R0 /\ forall j, P' i j = R0 /\ P' j i = R0.
Proof.
  move=> lat wE g r x x1 x' P P1 P' i Hi E. have E' : fstep (FPredict lat wE g r) (DV x) (DM P) = Ret (true, (DV x', DM P')).
  { rewrite /= fpredict_eq. move: E. by rewrite fpredict_eq. }
  apply: (fstep_keeps Hi E'). by left.
Qed.
Print Assumptions C70_bias_reset.
(** ... so a bias estimate is not preserved. *)
Theorem C70_bias_preserved_refuted :
  ~ (forall lat wE g r (x x1 x' : 'cV[R]_8) (P P1 P' : 'M[R]_8) i, is_bias i ->
     fineAlignmentPredict lat wE g r (DV x) (DM P) (DV x1) (DM P1) = Ret (true, (DV x', DM P')) -> st x' i = st x i).
Proof.
  move=> H. have [x' [P' [E [_ E0]]]] := fine_predict_case. have Hb : is_bias bN by left.
  have := H _ _ _ _ _ _ _ _ _ _ _ Hb E. rewrite E0 /st mxE !eqxx mulr1n. toR. lra.
Qed.
Print Assumptions C70_bias_preserved_refuted.

(** C71 *)
Theorem C71_weighted_mean : forall azMeas dtAz azEst sigAz (x x1 : 'cV[R]_8) (P P1 : 'M[R]_8),
  let v := Rmult (Rmult sigAz sigAz) dtAz in let p := P aD aD in let z := Rminus azMeas azEst in
  Rplus p v <> R0 -> P^T = P ->
  exists (x' : 'cV[R]_8) (P' : 'M[R]_8),
    fineAlignmentAzimuthUpdate azMeas dtAz azEst sigAz (DV x) (DM P) (DV x1) (DM P1) = Ret (true, (DV x', DM P')) /\
    st x' aD = Rdiv (Rplus (Rmult v (st x aD)) (Rmult p z)) (Rplus p v) /\
    P' aD aD = Rdiv (Rmult p v) (Rplus p v) /\
    forall i, P i aD = R0 -> st x' i = st x i /\ forall j, P' i j = P i j /\ P' j i = P j i.
Proof.
  move=> azMeas dtAz azEst sigAz x x1 P P1 v p z HS SP.
  have [x' [P' [E [Ex EP]]]] := faz_ok azMeas azEst x x1 P1 HS SP.
  exists x', P'. split; first exact: E. rewrite /st !Ex !EP -/p -/v -/z. split; [|split].
  - move: (x aD 0) => a. toR. field. exact: HS.
  - toR. field. exact: HS.
  - move=> i Ei. rewrite Ex Ei. split; first by move: (x i 0) (x aD 0) => a b; rewrite /Rdiv; toR; lra.
    move=> j. rewrite !EP Ei. move: (P i j) (P j i) (P j aD) => a b c. rewrite /Rdiv. toR. split; lra.
Qed.
Print Assumptions C71_weighted_mean.
Theorem C71_every_entry : forall azMeas dtAz azEst sigAz (x x1 : 'cV[R]_8) (P P1 : 'M[R]_8),
  let S := Rplus (P aD aD) (Rmult (Rmult sigAz sigAz) dtAz) in
  S <> R0 -> P^T = P ->
  exists (x' : 'cV[R]_8) (P' : 'M[R]_8),
    fineAlignmentAzimuthUpdate azMeas dtAz azEst sigAz (DV x) (DM P) (DV x1) (DM P1) = Ret (true, (DV x', DM P')) /\
    (forall i, st x' i = Rplus (st x i) (Rmult (Rdiv (P i aD) S) (Rminus (Rminus azMeas azEst) (st x aD)))) /\
    (forall i j, P' i j = Rminus (P i j) (Rdiv (Rmult (P i aD) (P j aD)) S)).
Proof. exact faz_ok. Qed.
Print Assumptions C71_every_entry.
Theorem C71_covariance : forall azMeas dtAz azEst sigAz (x x1 x' : 'cV[R]_8) (P P1 P' : 'M[R]_8), psd P -> Rle 0 dtAz ->
  fineAlignmentAzimuthUpdate azMeas dtAz azEst sigAz (DV x) (DM P) (DV x1) (DM P1) = Ret (true, (DV x', DM P')) -> psd P' /\ loewner P' P.
Proof. exact faz_psd. Qed.
Print Assumptions C71_covariance.
(** An azimuth known exactly and measured exactly: no finite result. *)
Theorem C71_not_finite : forall azMeas dtAz azEst sigAz (x x1 : 'cV[R]_8) (P P1 : 'M[R]_8),
  Rplus (P aD aD) (Rmult (Rmult sigAz sigAz) dtAz) = R0 ->
  fineAlignmentAzimuthUpdate azMeas dtAz azEst sigAz (DV x) (DM P) (DV x1) (DM P1) = NonFinite.
Proof. exact faz_singular. Qed.
Print Assumptions C71_not_finite.
Theorem C71_rejects : forall azMeas dtAz azEst sigAz xk Pk x1 P1, ~ fine_sizes xk Pk x1 P1 ->
  fineAlignmentAzimuthUpdate azMeas dtAz azEst sigAz xk Pk x1 P1 = Ret (false, (x1, P1)).
Proof. exact faz_rejects. Qed.
Print Assumptions C71_rejects.

(** C72: the gains (k0 i, k1 i) solve the two equations of the Kalman gain for an
    observation of vN and vE with variance v each, and give the update. *)
Theorem C72_kalman_update : forall v0 v1 dt sig (x x1 x' : 'cV[R]_8) (P P1 P' : 'M[R]_8),
  let v := Rmult (Rmult sig sig) dt in
  fineAlignmentVelocityUpdate v0 v1 dt sig (DV x) (DM P) (DV x1) (DM P1) = Ret (true, (DV x', DM P')) ->
  exists k0 k1 : 'I_8 -> R,
    (forall i, Rplus (Rmult (k0 i) (Rplus (P vN vN) v)) (Rmult (k1 i) (P vE vN)) = P i vN /\
               Rplus (Rmult (k0 i) (P vN vE)) (Rmult (k1 i) (Rplus (P vE vE) v)) = P i vE) /\
    (forall i, st x' i = Rplus (st x i) (Rplus (Rmult (k0 i) (Rminus v0 (st x vN))) (Rmult (k1 i) (Rminus v1 (st x vE))))) /\
    (forall i j, P' i j = Rminus (P i j) (Rplus (Rmult (k0 i) (P vN j)) (Rmult (k1 i) (P vE j)))).
Proof. exact fvel_inv. Qed.
Print Assumptions C72_kalman_update.
Theorem C72_finite : forall v0 v1 dt sig (x x1 : 'cV[R]_8) (P P1 : 'M[R]_8), psd P -> Rlt 0 dt -> sig <> R0 ->
  exists (x' : 'cV[R]_8) (P' : 'M[R]_8),
  fineAlignmentVelocityUpdate v0 v1 dt sig (DV x) (DM P) (DV x1) (DM P1) = Ret (true, (DV x', DM P')).
Proof. exact fvel_finite. Qed.
Print Assumptions C72_finite.
Example fine_velocity_case : exists (x' : 'cV[R]_8) (P' : 'M[R]_8),
  fineAlignmentVelocityUpdate 1 2 1 1 (DV (0 : 'cV[R]_8)) (DM (1%:M : 'M[R]_8)) (DV (0 : 'cV[R]_8)) (DM (0 : 'M[R]_8)) =
    Ret (true, (DV x', DM P')) /\ st x' vN = Rdiv 1 2 /\ st x' vE = R1.
Proof.
  have H1 : Rlt 0 1 by lra.
  have [x' [P' E]] := fvel_finite 1 2 (0 : 'cV[R]_8) (0 : 'cV[R]_8) (0 : 'M[R]_8) (pd_psd (pd1 8)) H1 R1_neq_R0.
  exists x', P'. split; first exact: E. have [k0 [k1 [Hk [Hx _]]]] := fvel_inv E.
  have [A1 B1] := Hk vN. have [A2 B2] := Hk vE.
  have D1 : (vN == vE) = false by rewrite /vN /vE eq8. have D2 : (vE == vN) = false by rewrite /vN /vE eq8.
  rewrite /st !Hx. move: A1 B1 A2 B2. rewrite !mxE !eqxx D1 D2 !mulr1n !mulr0n. toR. move=> A1 B1 A2 B2. split; lra.
Qed.
(** A perfect measurement pins both velocities. *)
Theorem C72_perfect : forall v0 v1 dt sig (x x1 x' : 'cV[R]_8) (P P1 P' : 'M[R]_8), Rmult (Rmult sig sig) dt = R0 ->
  fineAlignmentVelocityUpdate v0 v1 dt sig (DV x) (DM P) (DV x1) (DM P1) = Ret (true, (DV x', DM P')) ->
  st x' vN = v0 /\ st x' vE = v1 /\ forall j, P' vN j = R0 /\ P' vE j = R0.
Proof. exact fvel_exact. Qed.
Print Assumptions C72_perfect.
Theorem C72_perfect_finite : forall v0 v1 sig (x x1 : 'cV[R]_8) (P P1 : 'M[R]_8), pd P ->
  exists (x' : 'cV[R]_8) (P' : 'M[R]_8),
  fineAlignmentVelocityUpdate v0 v1 0 sig (DV x) (DM P) (DV x1) (DM P1) = Ret (true, (DV x', DM P')).
Proof. exact fvel_perfect_finite. Qed.
Print Assumptions C72_perfect_finite.
Theorem C72_covariance : forall v0 v1 dt sig (x x1 x' : 'cV[R]_8) (P P1 P' : 'M[R]_8), psd P -> Rle 0 dt ->
  fineAlignmentVelocityUpdate v0 v1 dt sig (DV x) (DM P) (DV x1) (DM P1) = Ret (true, (DV x', DM P')) -> psd P' /\ loewner P' P.
Proof. exact fvel_psd. Qed.
Print Assumptions C72_covariance.
Theorem C72_rejects : forall v0 v1 dt sig xk Pk x1 P1, ~ fine_sizes xk Pk x1 P1 ->
  fineAlignmentVelocityUpdate v0 v1 dt sig xk Pk x1 P1 = Ret (false, (x1, P1)).
Proof. exact fvel_rejects. Qed.
Print Assumptions C72_rejects.

(** C91: after any history of calls with a prediction in it, the gyro biases and
    their covariances are 0: the filter cannot estimate them. *)
Theorem C91_biases_stay_zero : forall h (x : 'cV[R]_8) (P : 'M[R]_8) i y Q, is_bias i -> has is_predict h ->
  frun h (DV x) (DM P) = Ret (y, Q) ->
  exists (x' : 'cV[R]_8) (P' : 'M[R]_8), y = DV x' /\ Q = DM P' /\ st x' i = R0 /\ forall j, P' i j = R0 /\ P' j i = R0.
Proof.
  move=> h x P i y Q Hi Hh E. have H : has is_predict h \/ clean i x P by left.
  have [x' [P' [-> -> [H1 H2]]]] := frun_keeps Hi H E. by exists x', P'.
Qed.
Print Assumptions C91_biases_stay_zero.
(** Such histories run: a prediction at rest and an azimuth fix. *)
Example fine_history_case : exists y Q,
  frun [:: FVelocity 1 2 1 1; FPredict 0 1 1 1; FVelocity 1 2 1 1] (DV (delta_mx bN 0 : 'cV[R]_8)) (DM (1%:M : 'M[R]_8)) = Ret (y, Q).
Proof.
  have H1 : Rlt 0 1 by lra. have H1' : Rle 0 1 by lra.
  have [x1 [P1 E1]] := fvel_finite 1 2 (delta_mx bN 0 : 'cV[R]_8) (delta_mx bN 0 : 'cV[R]_8) 1%:M (pd_psd (pd1 8)) H1 R1_neq_R0.
  have [HP1 _] := fvel_psd (pd_psd (pd1 8)) H1' E1.
  have Hc : cos 0 <> R0 by rewrite cos_0; exact: R1_neq_R0.
  have [Phi [EPhi _]] := phi_ok 1 1 Hc R1_neq_R0.
  have HP2 : psd (Phi *m P1 *m Phi^T) by exact: psd_congr.
  have [x3 [P3 E3]] := fvel_finite 1 2 (Phi *m x1) (Phi *m x1) (Phi *m P1 *m Phi^T) HP2 H1 R1_neq_R0.
  exists (DV x3), (DM P3). cbn [frun fstep]. rewrite E1. cbn [bind fst snd]. rewrite fpredict_eq EPhi. cbn [bind fst snd].
  by rewrite E3.
Qed.

(** C92: the azimuth residual is not wrapped: a whole turn more in the measured
    azimuth moves every state by its gain times 2 pi. *)
Theorem C92_whole_turn : forall azMeas dtAz azEst sigAz (x x1 x' x'' : 'cV[R]_8) (P P1 P' P'' : 'M[R]_8),
  let S := Rplus (P aD aD) (Rmult (Rmult sigAz sigAz) dtAz) in P^T = P ->
  fineAlignmentAzimuthUpdate azMeas dtAz azEst sigAz (DV x) (DM P) (DV x1) (DM P1) = Ret (true, (DV x', DM P')) ->
  fineAlignmentAzimuthUpdate (Rplus azMeas (Rmult 2 PI)) dtAz azEst sigAz (DV x) (DM P) (DV x1) (DM P1) = Ret (true, (DV x'', DM P'')) ->
  P'' = P' /\ forall i, st x'' i = Rplus (st x' i) (Rmult (Rdiv (P i aD) S) (Rmult 2 PI)).
Proof.
  move=> azMeas dtAz azEst sigAz x x1 x' x'' P P1 P' P'' S SP E1 E2.
  have HS : S <> R0 by move=> E0; move: E1; rewrite faz_singular.
  have [y [Q [E3 [Ex EP]]]] := faz_ok azMeas azEst x x1 P1 HS SP.
  have [y' [Q' [E4 [Ex' EP']]]] := faz_ok (Rplus azMeas (Rmult 2 PI)) azEst x x1 P1 HS SP.
  rewrite E1 in E3. rewrite E2 in E4. have [_ -> ->] := Ret_inj E3. have [_ -> ->] := Ret_inj E4.
  split; first by apply/matrixP => i j; rewrite EP EP'.
  move=> i. rewrite /st Ex Ex' -/S. move: (x i 0) (x aD 0) (P i aD) => a b c. toR. field. exact: HS.
Qed.
Print Assumptions C92_whole_turn.
(** So two measurements of the same heading give different estimates as soon as
    the azimuth error is uncertain. *)
Theorem C92_same_heading_differs : forall azMeas dtAz azEst sigAz (x x1 x' x'' : 'cV[R]_8) (P P1 P' P'' : 'M[R]_8),
  P^T = P -> P aD aD <> R0 ->
  fineAlignmentAzimuthUpdate azMeas dtAz azEst sigAz (DV x) (DM P) (DV x1) (DM P1) = Ret (true, (DV x', DM P')) ->
  fineAlignmentAzimuthUpdate (Rplus azMeas (Rmult 2 PI)) dtAz azEst sigAz (DV x) (DM P) (DV x1) (DM P1) = Ret (true, (DV x'', DM P'')) ->
  st x'' aD <> st x' aD.
Proof.
  move=> azMeas dtAz azEst sigAz x x1 x' x'' P P1 P' P'' SP HP E1 E2.
  have HS : Rplus (P aD aD) (Rmult (Rmult sigAz sigAz) dtAz) <> R0 by move=> E0; move: E1; rewrite faz_singular.
  have [_ ->] := C92_whole_turn SP E1 E2. move=> H.
  have : Rmult (Rdiv (P aD aD) (Rplus (P aD aD) (Rmult (Rmult sigAz sigAz) dtAz))) (Rmult 2 PI) = R0.
  { move: H. move: (Rmult (Rdiv _ _) _) (st x' aD) => a b. lra. }
  have HPI := PI_neq0. case/Rmult_integral; last lra.
  rewrite /Rdiv => /Rmult_integral [//|]. exact: Rinv_neq_0_compat.
Qed.
Print Assumptions C92_same_heading_differs.
