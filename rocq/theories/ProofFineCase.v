(** Concrete cases of fine alignment in doubles. *)
From Coq Require Import Reals Lra ZArith.
From Flocq Require Import Core.
From mathcomp Require Import all_ssreflect all_algebra.
From Verif Require Import Base BaseMx ModelEigen ModelKalman ModelDate ModelFine ModelFilterFloat ModelUpdateFloat ModelFineFloat SpecFloatOps SpecKalman SpecFine SpecFilterFloat SpecUpdateFloat SpecFineFloat
  ProofMx ProofKalman ProofKalman2 ProofStrapdownFloat ProofStrapdownFloat2 ProofFine ProofFilterFloat1 ProofFilterFloat ProofUpdateFloat ProofDirect ProofFineFloat ProofFineFloat2.
Set Implicit Arguments.
Unset Strict Implicit.
Unset Printing Implicit Defensive.
Import GRing.Theory.
Local Open Scope ring_scope.
Local Open Scope outcome_scope.

Section Num.
Local Open Scope R_scope.
Lemma ordinary_mid d : 1 <= d <= 2 -> ordinary d.
Proof.
  move=> H. split. - apply: Rle_trans (proj1 H). rewrite -[1]/(bpow radix2 0). exact: bpow_le.
  - apply: Rle_trans (proj2 H) _. rewrite -[2]/(bpow radix2 1). exact: bpow_le.
Qed.
Lemma rnd_lib (f : R -> R) : lib_ok (fun x => rnd64 (f x)) f.
Proof. move=> x. have := rnd64_rnd_ok (f x). have [U0 _] := u64_bounds. have := Rabs_pos (f x). nra. Qed.
Lemma sqrt2_mid : 1 <= sqrt 2 <= 2.
Proof. rewrite -{1}sqrt_1 -{3}(sqrt_square 2); last lra. split; apply: sqrt_le_1_alt; lra. Qed.
Lemma num_az f t u s : u = / 9007199254740992 -> 0 < t <= 1 / 1000000000 -> 1 <= s -> Rabs (f - 1 / 2) <= 320 * u * (0 + 1 / s * (1 + 0 + 0 + t) + t) -> Rabs (f - 1 / 2) <= / 10000000000000.
Proof. move=> -> Ht Hs H. have : 1 / s <= 1 by apply: (Rmult_le_reg_r s); [lra|]; rewrite /Rdiv Rmult_assoc Rinv_l; lra. move=> D. have : 1 / s * (1 + 0 + 0 + t) <= 1 * (1 + 0 + 0 + t) by apply: Rmult_le_compat_r; lra. lra. Qed.
End Num.

Lemma az_case : exists (xf : 'cV[R]_8) (Pf : 'M[R]_8), fineAlignmentAzimuthUpdate_f rnd64 (@dot_loop rnd64) (inv1_f rnd64) 1 1 0 1 0 1%:M = Ret (xf, Pf) /\
  Rle (Rabs (Rminus (xf aD 0) (Rdiv 1 2))) (Rinv 10000000000000) /\ Rle (Rabs (Rminus (Pf aD aD) (Rdiv 1 2))) (Rinv 1000000000000).
Proof.
  have E1 (i j : 'I_8) : (1%:M : 'M[R]_8) i j = if i == j then R1 else R0 by rewrite mxE; case: eqP.
  have [T1 T2] := sqrt2_mid. have T3 := tiny_pos. have T4 := tiny_small. have UV := u64_val.
  have ES : Rplus ((1%:M : 'M[R]_8) aD aD) (Rmult (Rmult 1 1) 1) = Rmult (sqrt 2) (sqrt 2).
  { rewrite E1 eqxx sqrt_sqrt; lra. }
  have O1 : ordinary 1 by apply: ordinary_mid; lra.
  have V1 (i : 'I_8) : Rle ((1%:M : 'M[R]_8) i i) (Rmult 1 1) by rewrite E1 eqxx; lra.
  have Z1 : Rle 0 1 by lra.
  have [xe [xf [Pe [Pf [EE [EF [BX BP]]]]]]] := @azimuth_ok rnd64 (@dot_loop rnd64) 1 1 0 1 0 0 1%:M 0 (fun _ => R1) (sqrt 2) rnd64_rnd_ok (dot_loop_ok rnd64_rnd_ok) (pd_psd (pd1 8))
    (fun _ => O1) V1 Z1 (proj2 O1) (ordinary_mid (conj T1 T2)) ES T1.
  have S2 : Rmult (sqrt 2) (sqrt 2) = IZR 2 by rewrite sqrt_sqrt; lra.
  have NZ : Rplus ((1%:M : 'M[R]_8) aD aD) (Rmult (Rmult 1 1) 1) <> R0 by rewrite ES S2; lra.
  have [xe' [Pe' [EE' [EX EP]]]] := @faz_ok 1 1 0 1 0 0 1%:M 0 NZ (trmx1 _ _).
  rewrite EE in EE'. have XX : xe = xe' by apply: DV_inj; congruence. have PP : Pe = Pe' by apply: DM_inj; congruence. subst xe' Pe'.
  exists xf, Pf. split=> //. have {}EX := EX aD. have {}EP := EP aD aD. rewrite ES S2 !E1 !eqxx in EX EP. split.
  - have B := BX aD. rewrite EX [(0 : 'cV[R]_8) _ _]mxE !Rabs_R0 Rabs_R1 in B.
    have X : Rplus 0 (Rmult (Rdiv 1 2) (Rminus (Rminus 1 0) 0)) = Rdiv 1 2 by lra. rewrite X in B. exact: (num_az UV (conj T3 T4) T1 B).
  - have B := BP aD aD. rewrite EP in B. have X : Rminus 1 (Rdiv (Rmult 1 1) 2) = Rdiv 1 2 by lra. rewrite X UV in B. lra.
Qed.

(** A body at the equator. *)
Section Num2.
Local Open Scope R_scope.
Lemma num_pr f t u : u = / 9007199254740992 -> 0 < t <= 1 / 1000000000 -> Rabs (f - - (1 / 2)) <= 36 * u * (3 / 2 + 8 * ((1 + 1 + / 2) * t) + t) -> Rabs (f + 1 / 2) <= / 100000000000000.
Proof. move=> -> Ht. rewrite (_ : f - - (1 / 2) = f + 1 / 2); last ring. lra. Qed.
End Num2.
Lemma pr_case : exists (xf : 'cV[R]_8) (Pf : 'M[R]_8), fineAlignmentPredict_f rnd64 (@dot_loop rnd64) (fun x => rnd64 (sin x)) (fun x => rnd64 (cos x)) (fun x => rnd64 (tan x)) 0 1 9 2 (const_mx R1) 0 = Ret (xf, Pf) /\
  Rle (Rabs (Rplus (xf aN 0) (Rdiv 1 2))) (Rinv 100000000000000).
Proof.
  have T3 := tiny_pos. have T4 := tiny_small. have UV := u64_val. have r2 : IZR 2 <> R0 by lra. have c1 : cos 0 <> R0 by rewrite cos_0; lra.
  have [Phi [xe [xf [Pe [Pf [EP [EE [EF [BX _]]]]]]]]] := @predict_ok rnd64 (@dot_loop rnd64) _ _ _ 0 1 9 2 rnd64_rnd_ok (dot_loop_ok rnd64_rnd_ok) (rnd_lib sin) (rnd_lib cos) (rnd_lib tan) r2 c1 (const_mx R1) 0 0 0.
  exists xf, Pf. split=> //. have B := BX aN.
  rewrite fpredict_eq EP /= in EE. have XE : xe = Phi *m const_mx R1 by apply: DV_inj; congruence.
  have EPhi : Phi = mx_of 8 8 [:: [:: R0; Rmult (Ropp 1) (sin 0); R0; (-1)%re; R0; R0; R0; Rdiv 1 2];
       [:: Rmult 1 (sin 0); R0; Rmult 1 (cos 0); R0; (-1)%re; R0; Rdiv (-1) 2; R0];
       [:: R0; Rmult (Ropp 1) (cos 0); R0; R0; R0; (-1)%re; R0; Rdiv (Rdiv (sin 0) (cos 0)) 2];
       [:: R0; R0; R0; R0; R0; R0; R0; R0];
       [:: R0; R0; R0; R0; R0; R0; R0; R0];
       [:: R0; R0; R0; R0; R0; R0; R0; R0];
       [:: R0; IZR 9; R0; R0; R0; R0; R0; Rmult (Rmult (-2)%re 1) (sin 0)];
       [:: Ropp 9; R0; R0; R0; R0; R0; Rmult (Rmult 2%re 1) (sin 0); R0]].
  { move: EP. by rewrite /alignmentPhik !Rdivc_ok //= ?Rdivc_ok //= ?Rdivc_ok //= ?Rdivc_ok //= => -[<-]. }
  have row f : \sum_k Rmult (f (Phi aN k)) ((const_mx R1 : 'cV[R]_8) k 0) = Rplus (Rplus (Rmult 6 (f R0)) (f (-1)%re)) (f (Rdiv 1 2)).
  { rewrite sum8 EPhi /aN /aE /aD /bN /bE /bD /vN /vE !mx_of_inord //= ![const_mx _ _ _]mxE sin_0 Rmult_0_r. toR. change (IZR 0) with R0. ring. }
  have XA : xe aN 0 = Ropp (Rdiv 1 2).
  { rewrite XE mxE. have := row (fun y => y). toR => ->. lra. }
  have SA : size_mul (phi_size 1 2 Phi) (const_mx R1 : 'cV[R]_8) aN 0 = Rplus (Rplus (Rdiv 3 2) (Rmult 8 (Rmult (Rplus (Rplus 1 1) (Rinv 2)) tiny64))) tiny64.
  { rewrite (size_at (phi_size 1 2 Phi) (const_mx R1 : 'cV[R]_8)). congr Rplus. set c := Rmult _ tiny64. have c0 : Rle 0 c by rewrite /c; apply: Rmult_le_pos; lra.
    rewrite (eq_bigr (fun k => Rmult (Rplus (Rabs (Phi aN k)) c) ((const_mx R1 : 'cV[R]_8) k 0))); last first.
    { move=> k _. rewrite /phi_size [(_ + const_mx _ : 'M_8) _ _]mxE [map_mx _ _ _ _]mxE ![const_mx _ _ _]mxE Rabs_R1 (Rabs_right 2); last lra. rewrite -/c ?Rabs_R1 Rabs_right //. apply: Rle_ge. have := Rabs_pos (Phi aN k). toR. lra. }
    rewrite (row (fun y => Rplus (Rabs y) c)) Rabs_R0 Rabs_Ropp Rabs_R1 (Rabs_right (Rdiv 1 2)); last lra. toR. lra. }
  rewrite XA SA in B. exact: (num_pr UV (conj T3 T4) B).
Qed.
