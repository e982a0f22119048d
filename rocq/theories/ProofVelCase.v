(** A concrete case of the velocity update in doubles. *)
From Coq Require Import Reals Lra ZArith.
From Flocq Require Import Core.
From mathcomp Require Import all_ssreflect all_algebra.
From Verif Require Import Base BaseMx ModelEigen ModelKalman ModelDate ModelLuMx ModelFine ModelFilterFloat ModelUpdateFloat ModelFineFloat SpecFloatOps SpecKalman SpecFine SpecLdltFloat SpecFilterFloat SpecUpdateFloat SpecLuFloat SpecFineFloat
  ProofMx ProofKalman ProofKalman2 ProofStrapdownFloat ProofStrapdownFloat2 ModelLdltFloat ProofLdlt7 ProofLdlt8 ProofFine ProofFilterFloat1 ProofFilterFloat ProofUpdateFloat ProofDirect ProofFineFloat ProofFineCase ProofVelFloat.
Set Implicit Arguments.
Unset Strict Implicit.
Unset Printing Implicit Defensive.
Import GRing.Theory.
Local Open Scope ring_scope.

Section Num.
Local Open Scope R_scope.
Lemma sqrt2_pow : sqrt 2 * sqrt 2 = 2 /\ sqrt 2 * sqrt 2 * sqrt 2 <= 4 /\ 0 <= sqrt 2.
Proof. have [A B] := sqrt2_mid. have E : sqrt 2 * sqrt 2 = 2 by rewrite sqrt_sqrt; lra. rewrite E. lra. Qed.
Lemma num_vx f t u c3 : u = / 9007199254740992 -> 0 < t <= 1 / 1000000000 -> 0 <= c3 <= 4 -> Rabs (f - 1 / 2) <= 108 * u * (0 + t) + 9000 * u * c3 * (1 / 1 * (1 + 0 + 0 + 0 + 2 * t)) -> Rabs (f - 1 / 2) <= / 100000000000.
Proof. move=> -> Ht Hc H. have : c3 * (1 / 1 * (1 + 0 + 0 + 0 + 2 * t)) <= 4 * 2 by apply: Rmult_le_compat; lra. lra. Qed.
End Num.

Lemma vel_case : exists (xf : 'cV[R]_8) (Pf : 'M[R]_8), fineAlignmentVelocityUpdate_f rnd53 (@dot_loop rnd64) (lu_mx rnd53 (msub_loop rnd53)) 1 0 1 1 0 1%:M = Ret (xf, Pf) /\
  Rle (Rabs (Rminus (xf SpecFine.vN 0) (Rdiv 1 2))) (Rinv 100000000000) /\ Rle (Rabs (Rminus (Pf SpecFine.vN SpecFine.vN) (Rdiv 1 2))) (Rinv 1000000000000).
Proof.
  have E1 (i j : 'I_8) : (1%:M : 'M[R]_8) i j = if i == j then R1 else R0 by rewrite mxE; case: eqP.
  have [C2 [C3 C0]] := sqrt2_pow. have T3 := tiny_pos. have T4 := tiny_small. have UV := u64_val.
  have O1 : ordinary 1 by apply: ordinary_mid; lra.
  have V1 (i : 'I_8) : Rle ((1%:M : 'M[R]_8) i i) (Rmult 1 1) by rewrite E1 eqxx; lra.
  have Z1 : Rle 0 1 by lra. have ER : Rmult (Rmult 1 1) 1 = Rmult 1 1 by lra. have Ec : Rplus (Rmult 1 1) (Rmult 1 1) = Rmult (Rmult (sqrt 2) (sqrt 2)) (Rmult 1 1) by rewrite C2; lra.
  have Vc : Rle (Rmult (Rmult 300000 u64) (Rmult (Rmult (sqrt 2) (sqrt 2)) (sqrt 2))) 1 by rewrite UV; lra.
  have [xe [xf [Pe [Pf [EE [EF [BX BP]]]]]]] := @velocity_ok rnd53 (@dot_loop rnd64) (msub_loop rnd53) 1 0 1 1 0 0 1%:M 0 (fun _ => R1) 1 1 (sqrt 2) rnd53_rel (dot_loop_ok rnd64_rnd_ok) (@msub_loop_ok rnd53 rnd53_rel) (pd_psd (pd1 8))
    (fun _ => O1) V1 Z1 (proj2 O1) O1 ER O1 (Rle_refl _) (Rle_refl _) C0 Ec Vc.
  exists xf, Pf. split=> //. have [k0 [k1 [Hk [EX EP]]]] := fvel_inv EE. have NE : SpecFine.vN == vE = false by rewrite /SpecFine.vN /vE eq8. have EN : vE == SpecFine.vN = false by rewrite eq_sym.
  have [K0 K1] := Hk SpecFine.vN. rewrite !E1 !eqxx NE EN in K0 K1. have K00 : k0 SpecFine.vN = Rdiv 1 2 by lra. have K10 : k1 SpecFine.vN = R0 by lra.
  have {}EX := EX SpecFine.vN. have {}EP := EP SpecFine.vN SpecFine.vN. rewrite K00 K10 in EX EP. rewrite ![(0 : 'cV[R]_8) _ _]mxE in EX. rewrite !E1 eqxx EN in EP. split.
  - have B := BX SpecFine.vN. rewrite EX ![(0 : 'cV[R]_8) _ _]mxE !Rabs_R0 Rabs_R1 in B.
    have X : Rplus 0 (Rplus (Rmult (Rdiv 1 2) (Rminus 1 0)) (Rmult 0 (Rminus 0 0))) = Rdiv 1 2 by lra. rewrite X in B. apply: (num_vx UV (conj T3 T4) (conj _ C3) B). apply: Rmult_le_pos => //. rewrite C2. lra.
  - have B := BP SpecFine.vN SpecFine.vN. rewrite EP in B. have X : Rminus 1 (Rplus (Rmult (Rdiv 1 2) 1) (Rmult 0 0)) = Rdiv 1 2 by lra. rewrite X UV !C2 in B. rewrite (Rmult_assoc 2 (sqrt 2)) !C2 in B. lra.
Qed.
