(** The prediction of fine alignment in rounded arithmetic. *)
From Coq Require Import Reals Lra ZArith.
From Flocq Require Import Core.
From mathcomp Require Import all_ssreflect all_algebra.
From Verif Require Import Base BaseMx ModelEigen ModelKalman ModelFine ModelFilterFloat ModelUpdateFloat ModelFineFloat SpecFloatOps SpecKalman SpecFine SpecFilterFloat SpecUpdateFloat SpecFineFloat
  ProofMx ProofKalman ProofKalman2 ProofStrapdownFloat ProofFine ProofFilterFloat ProofUpdateFloat ProofDirect ProofFineFloat.
Set Implicit Arguments.
Unset Strict Implicit.
Unset Printing Implicit Defensive.
Import GRing.Theory.
Local Open Scope ring_scope.
Local Open Scope outcome_scope.

Section Entries.
Local Open Scope R_scope.
Variables (r : R -> R) (wE rad : R).
Hypotheses (Hr : rnd_ok r) (rad0 : rad <> 0).
Let w := 1 + Rabs wE + / Rabs rad.
Let u := u64.
Lemma w_facts : 1 <= w /\ Rabs wE <= w /\ / Rabs rad <= w /\ 0 < / Rabs rad.
Proof. have A := Rabs_pos wE. have B : 0 < / Rabs rad by apply: Rinv_0_lt_compat; exact: Rabs_pos_lt. rewrite /w. lra. Qed.
Lemma entry_same a : Rabs (a - a) <= 9 * u * (Rabs a + w * tiny64).
Proof.
  have [U0 _] := u64_bounds. have [W _] := w_facts. have T := tiny_pos. rewrite Rminus_eq_0 Rabs_R0. apply: Rmult_le_pos; first by rewrite /u; lra. have := Rabs_pos a. nra.
Qed.
Lemma rnd_t x : Rabs (r x - x) <= u * Rabs x + u * tiny64.
Proof. rewrite /u -eta_tiny. exact: Hr. Qed.
Lemma lib_t f g x : lib_ok f g -> Rabs (f x - g x) <= 2 * u * Rabs (g x) + u * tiny64.
Proof. rewrite /u -eta_tiny. exact. Qed.
(** A product with a constant known up to three roundings. *)
Lemma entry_mul a b a' b' k : Rabs (a' - a) <= u * Rabs a + u * tiny64 -> Rabs (b' - b) <= 2 * u * Rabs b + u * tiny64 -> Rabs a <= 2 * k -> k <= w -> Rabs b <= 1 ->
  Rabs (r (a' * b') - a * b) <= 9 * u * (Rabs (a * b) + w * tiny64).
Proof.
  move=> A B Ak kw B1. have [U0 U1] := u64_bounds. rewrite -/u in U0 U1. have [W _] := w_facts. have T := tiny_pos. have T1 := tiny_small.
  have C : Rabs (a' * b' - a * b) <= 3.1 * u * Rabs (a * b) + 3.1 * u * (w * tiny64).
  { rewrite (_ : a' * b' - a * b = (a' - a) * (b' - b) + (a' - a) * b + a * (b' - b)); last ring.
    apply: Rle_trans (Rabs_triang _ _) _. apply: Rle_trans (Rplus_le_compat_r _ _ _ (Rabs_triang _ _)) _. rewrite !Rabs_mult.
    have a0 := Rabs_pos a. have b0 := Rabs_pos b.
    have X1 := Rmult_le_compat _ _ _ _ (Rabs_pos (a' - a)) (Rabs_pos (b' - b)) A B.
    have X2 := Rmult_le_compat_r (Rabs b) _ _ b0 A. have X3 := Rmult_le_compat_l (Rabs a) _ _ a0 B.
    have ut : 0 < u * tiny64 by nra. have wt : tiny64 <= w * tiny64 by rewrite -{1}(Rmult_1_l tiny64); apply: Rmult_le_compat_r; lra.
    have ab : 0 <= Rabs a * Rabs b by nra.
    have Y1 : u * tiny64 * Rabs b <= u * tiny64 * 1 by apply: Rmult_le_compat_l; lra.
    have Y2 : Rabs a * (u * tiny64) <= 2 * w * (u * tiny64) by apply: Rmult_le_compat_r; lra.
    have Y3 : (u * Rabs a + u * tiny64) * (2 * u * Rabs b + u * tiny64) <= / 1000 * u * (Rabs a * Rabs b) + / 1000 * u * (w * tiny64).
    { have Z1 : u * (u * (Rabs a * Rabs b)) <= / 10000 * (u * (Rabs a * Rabs b)) by apply: Rmult_le_compat_r; [nra|lra].
      have Z2 : u * (Rabs a * (u * tiny64)) <= / 100000 * (2 * w * (u * tiny64)) by apply: Rmult_le_compat; nra.
      have Z3 : u * (u * tiny64 * Rabs b) <= / 100000 * (u * tiny64 * 1) by apply: Rmult_le_compat; nra.
      have Z4 : u * tiny64 * (u * tiny64) <= u * tiny64 * / 100000. { apply: Rmult_le_compat_l; first lra. nra. }
      have Z5 : u * tiny64 <= u * (w * tiny64) by nra. nra. }
    have Z5 : u * tiny64 <= u * (w * tiny64) by nra. have uab : 0 <= u * (Rabs a * Rabs b) by nra. lra. }
  have E := rnd_t (a' * b'). have ab := Rabs_pos (a * b).
  have F : Rabs (a' * b') <= 1.1 * Rabs (a * b) + w * tiny64.
  { have := Rabs_triang (a' * b' - a * b) (a * b). rewrite (_ : a' * b' - a * b + a * b = a' * b'); last ring. have : 3.1 * u * Rabs (a * b) <= / 10 * Rabs (a * b) by apply: Rmult_le_compat_r; lra.
    have : 3.1 * u * (w * tiny64) <= 1 * (w * tiny64) by apply: Rmult_le_compat_r; nra. lra. }
  have F2 := Rmult_le_compat_l u _ _ (Rlt_le _ _ U0) F. have wt : tiny64 <= w * tiny64 by rewrite -{1}(Rmult_1_l tiny64); apply: Rmult_le_compat_r; lra. have uwt : u * tiny64 <= u * (w * tiny64) by apply: Rmult_le_compat_l; lra. have uab : 0 <= u * Rabs (a * b) by apply: Rmult_le_pos; lra.
  have := Rabs_triang (r (a' * b') - a' * b') (a' * b' - a * b). rewrite (_ : r (a' * b') - a' * b' + (a' * b' - a * b) = r (a' * b') - a * b); last ring. have ut : 0 <= u * tiny64 by apply: Rmult_le_pos; lra. lra.
Qed.
Lemma entry_div b b' : Rabs (b' - b) <= 2 * u * Rabs b + u * tiny64 -> Rabs (r (b' / rad) - b / rad) <= 9 * u * (Rabs (b / rad) + w * tiny64).
Proof.
  move=> B. have [U0 U1] := u64_bounds. rewrite -/u in U0 U1. have [W [_ [W2 W3]]] := w_facts. have T := tiny_pos.
  have C : Rabs (b' / rad - b / rad) <= 2 * u * Rabs (b / rad) + u * (w * tiny64).
  { rewrite (_ : b' / rad - b / rad = (b' - b) / rad); last by field. rewrite /Rdiv !Rabs_mult !Rabs_inv.
    have := Rmult_le_compat_r (/ Rabs rad) _ _ (Rlt_le _ _ W3) B. have : u * tiny64 * / Rabs rad <= u * tiny64 * w by apply: Rmult_le_compat_l; nra. lra. }
  have E := rnd_t (b' / rad). have ab := Rabs_pos (b / rad). have wt : tiny64 <= w * tiny64 by rewrite -{1}(Rmult_1_l tiny64); apply: Rmult_le_compat_r; lra.
  have F : Rabs (b' / rad) <= 1.1 * Rabs (b / rad) + w * tiny64.
  { have := Rabs_triang (b' / rad - b / rad) (b / rad). rewrite (_ : b' / rad - b / rad + b / rad = b' / rad); last ring. have : 2 * u * Rabs (b / rad) <= / 10 * Rabs (b / rad) by apply: Rmult_le_compat_r; lra.
    have : u * (w * tiny64) <= 1 * (w * tiny64) by apply: Rmult_le_compat_r; nra. lra. }
  have F2 := Rmult_le_compat_l u _ _ (Rlt_le _ _ U0) F. have uwt : u * tiny64 <= u * (w * tiny64) by apply: Rmult_le_compat_l; lra. have uab : 0 <= u * Rabs (b / rad) by apply: Rmult_le_pos; lra.
  have := Rabs_triang (r (b' / rad) - b' / rad) (b' / rad - b / rad). rewrite (_ : r (b' / rad) - b' / rad + (b' / rad - b / rad) = r (b' / rad) - b / rad); last ring. have ut : 0 <= u * tiny64 by apply: Rmult_le_pos; lra. lra.
Qed.
Lemma same_lib a : Rabs (a - a) <= 2 * u * Rabs a + u * tiny64.
Proof. have [U0 _] := u64_bounds. have T := tiny_pos. rewrite Rminus_eq_0 Rabs_R0. have := Rabs_pos a. rewrite /u. nra. Qed.
Lemma same_rnd a : Rabs (a - a) <= u * Rabs a + u * tiny64.
Proof. have [U0 _] := u64_bounds. have T := tiny_pos. rewrite Rminus_eq_0 Rabs_R0. have := Rabs_pos a. rewrite /u. nra. Qed.
Lemma abs_sin1 x : Rabs (sin x) <= 1. Proof. apply: Rabs_le. have := SIN_bound x. lra. Qed.
Lemma abs_cos1 x : Rabs (cos x) <= 1. Proof. apply: Rabs_le. have := COS_bound x. lra. Qed.
Lemma entry_wE f g s x : lib_ok f g -> Rabs (g x) <= 1 -> Rabs s = 1 -> Rabs (r (s * wE * f x) - s * wE * g x) <= 9 * u * (Rabs (s * wE * g x) + w * tiny64).
Proof.
  move=> H G1 S1. have [W1 [W2 _]] := w_facts. apply: (@entry_mul (s * wE) (g x) (s * wE) (f x) (Rabs wE)) => //; [exact: same_rnd|exact: lib_t|]. rewrite Rabs_mult S1. have := Rabs_pos wE. lra.
Qed.
Lemma entry_2wE f g s x : lib_ok f g -> Rabs (g x) <= 1 -> Rabs s = 2 -> Rabs (r (r (s * wE) * f x) - s * wE * g x) <= 9 * u * (Rabs (s * wE * g x) + w * tiny64).
Proof.
  move=> H G1 S1. have [W1 [W2 _]] := w_facts. apply: (@entry_mul (s * wE) (g x) (r (s * wE)) (f x) (Rabs wE)) => //; [exact: rnd_t|exact: lib_t|]. rewrite Rabs_mult S1. lra.
Qed.
End Entries.

Section Predict.
Variables (r : R -> R) (dot : dot_fun) (fsin fcos ftan : R -> R) (lat wE g rad : R).
Hypotheses (Hr : rnd_ok r) (Hd : dot_ok dot) (Hs : lib_ok fsin sin) (Hc : lib_ok fcos cos) (Ht : lib_ok ftan tan) (rad0 : rad <> R0) (c0 : cos lat <> R0).

Lemma phi_near : exists Phi Phif, alignmentPhik lat wE g rad = Ret Phi /\ alignmentPhik_f r fsin fcos ftan lat wE g rad = Ret Phif /\ @ProofUpdateFloat.near 8 _ _ 1 Phif Phi (phi_size wE rad Phi).
Proof.
  eexists; eexists. split; first by rewrite /alignmentPhik !Rdivc_ok //= !Rdivc_ok //= !Rdivc_ok //= !Rdivc_ok //=.
  split; first by rewrite /alignmentPhik_f !Rdivc_ok //= !Rdivc_ok //= !Rdivc_ok //=.
  set Phi := mx_of _ _ _. set Phif := mx_of _ _ _. move=> i j. have T := tiny_pos. have [W1 _] := w_facts wE rad0.
  split; last first.
  { rewrite /phi_size [(_ + const_mx _ : 'M_8) _ _]mxE [map_mx _ _ _ _]mxE [const_mx _ _ _]mxE. toR. have : Rle 0 (Rmult (Rplus (Rplus 1 (Rabs wE)) (Rinv (Rabs rad))) tiny64) by apply: Rmult_le_pos; lra. lra. }
  rewrite vN8 Rmult_1_l /phi_size [(_ + const_mx _ : 'M_8) _ _]mxE [map_mx _ _ _ _]mxE [const_mx _ _ _]mxE.
  have one1 : Rabs 1 = R1 by exact: Rabs_R1. have onem : Rabs (-1) = R1 by rewrite Rabs_Ropp Rabs_R1.
  have two2 : Rabs 2 = IZR 2 by apply: Rabs_right; lra. have twom : Rabs (-2) = IZR 2 by rewrite (_ : IZR (-2) = Ropp 2) ?Rabs_Ropp //; ring.
  have ES1 := @entry_wE r wE rad Hr rad0 fsin sin 1 lat Hs (abs_sin1 lat) one1. rewrite Rmult_1_l in ES1.
  have ESm := @entry_wE r wE rad Hr rad0 fsin sin (-1) lat Hs (abs_sin1 lat) onem. rewrite (_ : Rmult (-1) wE = Ropp wE) in ESm; last ring.
  have EC1 := @entry_wE r wE rad Hr rad0 fcos cos 1 lat Hc (abs_cos1 lat) one1. rewrite Rmult_1_l in EC1.
  have ECm := @entry_wE r wE rad Hr rad0 fcos cos (-1) lat Hc (abs_cos1 lat) onem. rewrite (_ : Rmult (-1) wE = Ropp wE) in ECm; last ring.
  have E2 := @entry_2wE r wE rad Hr rad0 fsin sin 2 lat Hs (abs_sin1 lat) two2.
  have E2m := @entry_2wE r wE rad Hr rad0 fsin sin (-2) lat Hs (abs_sin1 lat) twom.
  have ED := @entry_div r wE rad Hr rad0 1 1 (same_lib 1). have EDm := @entry_div r wE rad Hr rad0 (-1) (-1) (same_lib (-1)).
  have ET := @entry_div r wE rad Hr rad0 (tan lat) (ftan lat) (lib_t lat Ht).
  have Z := entry_same wE rad0.
  move: i j. apply: ord8_case; apply: ord8_case; rewrite /Phi /Phif /aN /aE /aD /bN /bE /bD /vN /vE !mx_of_inord //=; first [exact: Z|assumption].
Qed.

Theorem predict_ok (x x1 : 'cV[R]_8) (P P1 : 'M[R]_8) : exists (Phi : 'M[R]_8) (xe xf : 'cV[R]_8) (Pe Pf : 'M[R]_8), alignmentPhik lat wE g rad = Ret Phi /\
  fineAlignmentPredict lat wE g rad (DV x) (DM P) (DV x1) (DM P1) = Ret (true, (DV xe, DM Pe)) /\
  fineAlignmentPredict_f r dot fsin fcos ftan lat wE g rad x P = Ret (xf, Pf) /\
  (forall i, Rle (Rabs (Rminus (xf i 0) (xe i 0))) (Rmult (Rmult 36 u64) (size_mul (phi_size wE rad Phi) x i 0))) /\
  (forall i j, Rle (Rabs (Rminus (Pf i j) (Pe i j))) (Rmult (Rmult 99 u64) (size_mul (size_mul (phi_size wE rad Phi) P) (phi_size wE rad Phi)^T i j))).
Proof.
  have [Phi [Phif [E1 [E2 NP]]]] := phi_near. exists Phi. rewrite fpredict_eq /fineAlignmentPredict_f E1 E2 /=. eexists; eexists; eexists; eexists. split=> //. split; first reflexivity. split; first reflexivity.
  have E36 : Rmult 36 u64 = Rmult 4 (ProofUpdateFloat.vN 8) by rewrite vN8; toR; ring. have E99 : Rmult 99 u64 = Rmult 11 (ProofUpdateFloat.vN 8) by rewrite vN8; toR; ring.
  have A : @ProofUpdateFloat.near 8 _ _ 4 (mul_f dot Phif x) (Phi *m x) (size_mul (phi_size wE rad Phi) x).
  { have := @near_mul dot Hd 8 N8 _ _ _ 1 0 _ _ _ _ _ _ (leqnn 8) _ _ _ _ NP (near_refl 8 x). rewrite size_mul_abs'. move=> Q. apply: (near_le N8 _ (Q _ _ _ _)); rlra. }
  have B : @ProofUpdateFloat.near 8 _ _ 4 (mul_f dot Phif P) (Phi *m P) (size_mul (phi_size wE rad Phi) P).
  { have := @near_mul dot Hd 8 N8 _ _ _ 1 0 _ _ _ _ _ _ (leqnn 8) _ _ _ _ NP (near_refl 8 P). rewrite size_mul_abs'. move=> Q. apply: (near_le N8 _ (Q _ _ _ _)); rlra. }
  have C : @ProofUpdateFloat.near 8 _ _ 8 (mul_f dot (mul_f dot Phif P) Phif^T) (Phi *m P *m Phi^T) (size_mul (size_mul (phi_size wE rad Phi) P) (phi_size wE rad Phi)^T).
  { have Q := @near_mul dot Hd 8 N8 _ _ _ 4 1 _ _ _ _ _ _ (leqnn 8) _ _ _ _ B (near_tr NP). apply: (near_le N8 _ (Q _ _ _ _)); rlra. }
  have Z : @ProofUpdateFloat.near 8 _ _ 8 (0 : 'M[R]_8) 0 0.
  { move=> i j. rewrite mxE. toR. rewrite Rminus_eq_0 Rabs_R0 Rmult_0_r. split; exact: Rle_refl. }
  have D := @near_add r Hr 8 N8 _ _ 8 _ _ _ _ _ _ _ _ _ C Z.
  split=> [i|i j].
  - rewrite E36. exact: (proj1 (A i ord0)).
  - rewrite E99. have D' : @ProofUpdateFloat.near 8 _ _ 11 (map_mx r (mul_f dot (mul_f dot Phif P) Phif^T + 0)) (Phi *m P *m Phi^T + 0) (size_mul (size_mul (phi_size wE rad Phi) P) (phi_size wE rad Phi)^T + 0).
    { apply: (near_le N8 _ (D _ _ _)); try rlra. left=> a b. exact: size_mul_tiny. }
    have := proj1 (D' i j). by rewrite !addr0.
Qed.
End Predict.
