(** The filter with one state is the general filter at size 1. *)
From Coq Require Import Reals Lra.
From mathcomp Require Import all_ssreflect all_algebra.
From Verif Require Import Base BaseMx ModelEigen ModelKalman ModelKalmanFloat SpecKalmanFloat ProofVec ProofMx ProofKalman.
Set Implicit Arguments.
Unset Strict Implicit.
Unset Printing Implicit Defensive.
Import GRing.Theory.
Local Open Scope ring_scope.
Local Open Scope outcome_scope.

Lemma add11 (a b : R) : (a%:M + b%:M : 'M[R]_1) = (Rplus a b)%:M.
Proof. by apply/matrixP => i j; rewrite !mxE !ord1 !mulr1n. Qed.
Lemma sub11 (a b : R) : (a%:M - b%:M : 'M[R]_1) = (Rminus a b)%:M.
Proof. by apply/matrixP => i j; rewrite !mxE !ord1 !mulr1n. Qed.
Lemma mul11 (a b : R) : (a%:M *m b%:M : 'M[R]_1) = (Rmult a b)%:M.
Proof. by rewrite -scalar_mxM. Qed.
Lemma unit11 (a : R) : (a%:M : 'M[R]_1) \in unitmx = (a != 0).
Proof. by rewrite unitmxE det_scalar expr1 unitfE. Qed.

Lemma predict1 (x P phi Q x1 P1 : R) :
  filterPredict (v1 x) (m1 P) (m1 phi) (m1 Q) (v1 x1) (m1 P1) =
  Ret (true, (v1 (filterPredict1_f id x P phi Q).1, m1 (filterPredict1_f id x P phi Q).2)).
Proof. by rewrite /v1 /m1 predict_ok tr11 !mul11 add11 /=. Qed.
Lemma update1 (x P z H Rk x1 P1 : R) :
  filterUpdate (v1 x) (m1 P) (v1 z) (m1 H) (m1 Rk) (v1 x1) (m1 P1) =
  y <- filterUpdate1_f id x P z H Rk ;; Ret (true, (v1 y.1, m1 y.2)).
Proof.
  rewrite /v1 /m1 update_ok !tr11 !mul11 add11 unit11 /filterUpdate1_f /=. set S := Rplus _ _.
  case: eqP => [E|/eqP N] /=.
  - by rewrite E (_ : Rdivc 1 0 = NonFinite) // Rdivc_0.
  - have N' : S <> R0 by exact/eqP. rewrite Rdivc_ok //. cbn [bind].
    have I : S^-1 = Rdiv 1 S by rewrite /Rdiv Rmult_1_l /GRing.inv /= /Rinvx N.
    rewrite /gain /joseph !tr11 !(mul11, add11, sub11) -/S. rewrite invmx_scalar I !(mul11, add11, sub11). reflexivity.
Qed.
