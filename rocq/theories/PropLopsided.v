(** Claims about the Kalman filter (src/filter/KalmanFilter.cpp), continued: loss
    of symmetry does not pile up either. *)
From Coq Require Import Reals Lra.
From mathcomp Require Import all_ssreflect all_algebra.
From Verif Require Import Base BaseMx ModelEigen ModelKalman SpecKalman SpecFilter SpecSteady SpecDisturb SpecLopsided SpecFilterFloat ProofMx ProofKalman ProofKalman2 ProofKalman4 ProofKalman5 ProofFine ProofSteady ProofSteady2 ProofDisturb2 ProofFilterFloat ProofLopsided PropKalman PropSteady.
Set Implicit Arguments.
Unset Strict Implicit.
Unset Printing Implicit Defensive.
Import GRing.Theory.
Local Open Scope ring_scope.
Local Open Scope outcome_scope.

(** C146: the filter never restores the symmetry of the covariance.  If every
    call returns a covariance off by the fraction e, symmetric or not, and an
    estimate off by f standard deviations, both stay within fixed fractions of
    the exact run, however long it is. *)
Theorem C146_without_symmetry : forall n (h : seq (op n)) d e f s m (x x' y' : 'cV[R]_n) (P P1' P2' : 'M[R]_n), Rlt 0 d -> Rle 0 e -> Rle 0 f -> Rle 0 s ->
  let K := Rmult (Rmult (Rmult 4 e) (Rplus (INR m) 1)) (Rplus 1 (Rinv d)) in
  let C := Rmult (Rmult (Rmult 4 (Rplus (Rmult K s) f)) (Rplus (INR m) 1)) (Rplus 1 (Rinv d)) in
  Rle K (Rdiv 1 2) -> Rle (Rmult K K) e -> all_valid h -> psd P -> excited d h P -> spaced m m h ->
  lopsided e f s h x P x' P1' -> run h (DV x) (DM P) = Ret (true, (DV y', DM P2')) ->
  alike K P2' P1' /\ within (Rmult C C) P2' (x' - y').
Proof. exact @lopsided_stay. Qed.
Print Assumptions C146_without_symmetry.
(** In particular the two halves of the matrix never drift apart. *)
Theorem C146_asymmetry : forall n (A B : 'M[R]_n) e, psd A -> Rle 0 e -> alike e A B -> forall i j,
  Rle (Rabs (Rminus (B i j) (B j i))) (Rmult (Rmult 2 e) (sqrt (Rmult (A i i) (A j j)))).
Proof. exact @alike_asymmetry. Qed.
Print Assumptions C146_asymmetry.

(** A cycle with process noise 1/2 and unit measurement noise; the covariance
    after the measurement gets 1/2000 above and -1/2000 below the diagonal. *)
Definition skew : 'M[R]_2 := \matrix_(i, j) (if (i < j)%N then R1 else if (j < i)%N then Ropp R1 else R0).
Lemma skew_form (w g : 'cV[R]_2) : (w^T *m skew *m g) 0 0 = Rminus (Rmult (w 0 0) (g 1 0)) (Rmult (w 1 0) (g 0 0)).
Proof.
  rewrite mxE sum2 !mxE !sum2 !mxE /=. toR. ring.
Qed.
Lemma half_form (a : R) (w : 'cV[R]_2) : qf (a%:M : 'M[R]_2) w = Rmult a (Rplus (Rmult (w 0 0) (w 0 0)) (Rmult (w 1 0) (w 1 0))).
Proof.
  rewrite /qf mul_mx_scalar -scalemxAl mxE [X in _ * X]mxE sum2 !mxE /=. toR. ring.
Qed.
Lemma run_two n (o1 o2 : op n) x x1 x2 P P1 P2 : call o1 x P = Ret (true, (x1, P1)) -> call o2 x1 P1 = Ret (true, (x2, P2)) -> run [:: o1; o2] x P = Ret (true, (x2, P2)).
Proof. by move=> A B; rewrite /= A /= B. Qed.
Example C146_case : let h := cycles (constant 1%:M 1%:M 1%:M ((Rdiv 1 2)%:M : 'M[R]_2) [:: 0]) in let P' := 1%:M + Rdiv 1 2000 *: skew in
  [/\ lopsided (Rdiv 1 1000) 0 0 h 0 1%:M 0 P', ~ symmetric P' & alike (Rdiv 24 1000) 1%:M P'].
Proof.
  move=> h P'. have A := @half_all [:: 0]. have V : all_valid h by exact: (cycles_valid A). have HP := pd_psd (pd1 2).
  have D : Rlt 0 (Rdiv 1 2) by lra. have E0 : Rle 0 (Rdiv 1 1000) by lra.
  have G : (Rdiv 1 2)%:M + (Rdiv 1 2)%:M = 1%:M :> 'M[R]_2.
  { rewrite -raddfD /=. have E : Rplus (Rdiv 1 2) (Rdiv 1 2) = R1 by field. by rewrite [_ + _]E. }
  have C1 : call (Update (0 : 'cV[R]_2) (1%:M : 'M[R]_2) (1%:M : 'M[R]_2)) (DV (0 : 'cV[R]_2)) (DM (1%:M : 'M[R]_2)) = Ret (true, (DV (0 : 'cV[R]_2), DM ((Rdiv 1 2)%:M : 'M[R]_2))).
  { have := update_case 0. rewrite scaler0 /= !update_ok. by case: ifP. }
  have C2 (B : 'M[R]_2) : call (Predict (1%:M : 'M[R]_2) ((Rdiv 1 2)%:M : 'M[R]_2)) (DV (0 : 'cV[R]_2)) (DM B) = Ret (true, (DV (0 : 'cV[R]_2), DM (B + (Rdiv 1 2)%:M))).
  { rewrite /call predict_ok mulmx0 mul1mx trmx1 mulmx1. done. }
  have W0 (S : 'M[R]_2) : within (Rmult 0 0) S 0.
  { move=> w. rewrite mulmx0 mxE. toR. right. ring. }
  have W1 (B : 'M[R]_2) : within (Rmult 0 0) B (0 - 0) by rewrite subr0; exact: W0.
  have Q0 w : Rle 0 (qf P' w).
  { rewrite /P' qfD qfZ half_form /qf skew_form. toR. have := Rle_0_sqr (w 0 0). have := Rle_0_sqr (w 1 0). rewrite /Rsqr. lra. }
  have L : lopsided (Rdiv 1 1000) 0 0 h 0 1%:M 0 P'.
  { split; first by rewrite mulmx0 subr0; exact: W0. exists 0, 0, (Rdiv 1 2)%:M, ((Rdiv 1 2)%:M + Rdiv 1 2000 *: skew). split; first exact: C1.
    - move=> w g. rewrite addrC addKr -scalemxAr -scalemxAl mxE skew_form !half_form. toR. move: (w 0 0) (w 1 0) (g 0 0) (g 1 0) => a b c k. have := Rle_0_sqr (Rplus (Rmult a c) (Rmult b k)). rewrite /Rsqr. lra.
    - exact: W1.
    - split; first done. exists 0, 0, P', P'. split.
      + have := C2 ((Rdiv 1 2)%:M + Rdiv 1 2000 *: skew). by rewrite addrAC G.
      + move=> w g. rewrite subrr mulmx0 mul0mx mxE. have N := Rmult_le_pos _ _ (Rle_0_sqr (Rdiv 1 1000)) (Rmult_le_pos _ _ (Q0 w) (Q0 g)). rewrite /Rsqr in N. toR. lra.
      + exact: W1.
      + done. }
  split; first exact: L.
  - move=> /matrixP /(_ 0 1). rewrite !mxE /=. toR. lra.
  - have RU : run h (DV (0 : 'cV[R]_2)) (DM (1%:M : 'M[R]_2)) = Ret (true, (DV (0 : 'cV[R]_2), DM (1%:M : 'M[R]_2))).
    { have R2 := C2 (Rdiv 1 2)%:M. rewrite G in R2. exact: (run_two C1 R2). }
    have := C146_without_symmetry D E0 (Rle_refl 0) (Rle_refl 0). move=> /(_ 2%N h 1%N 0 0 0 1%:M P' 1%:M). cbv zeta.
    have -> : Rmult (Rmult (Rmult 4 (Rdiv 1 1000)) (Rplus (INR 1) 1)) (Rplus 1 (Rinv (Rdiv 1 2))) = Rdiv 24 1000 by rewrite /=; field.
    have K2 : Rle (Rdiv 24 1000) (Rdiv 1 2) by lra. have K3 : Rle (Rmult (Rdiv 24 1000) (Rdiv 24 1000)) (Rdiv 1 1000) by lra.
    have X : excited (Rdiv 1 2) h 1%:M by apply: cycles_excited => //; lra.
    move=> /(_ K2 K3 V HP X (cycles_spaced _) L RU) [Q _]. exact: Q.
Qed.
