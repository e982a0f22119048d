(** Two measurements of two states, and an inversion that exchanges rows. *)
From Coq Require Import Reals Arith Lra Psatz.
From mathcomp Require Import all_ssreflect all_algebra.
From Verif Require Import Base BaseMx ModelLdltFloat ModelLuFloat ModelLuMx ModelFilterFloat ModelUpdateFloat SpecFloatOps SpecKalman SpecBls SpecLdltFloat SpecFilterFloat SpecUpdateFloat SpecLuFloat
  ProofMx ProofFilterFloat ProofUpdateFloat ProofLdlt7 ProofLdlt8 ProofLuMx ProofStrapdownFloat.
Set Implicit Arguments.
Unset Strict Implicit.
Unset Printing Implicit Defensive.
Import GRing.Theory.
Local Open Scope ring_scope.

Lemma sq2 (x : 'cV[R]_2) : sq x = Rplus (Rmult (x 0 0) (x 0 0)) (Rmult (x 1 0) (x 1 0)).
Proof.
  rewrite /sq !big_ord_recr big_ord0 /= add0r. rewrite (_ : widen_ord (leqnSn 1) ord_max = 0); last exact: val_inj. by rewrite (_ : ord_max = 1); last exact: val_inj.
Qed.
Lemma ord2 (i : 'I_2) : i = 0 \/ i = 1.
Proof. case: i => -[|[|k]] // I; [left|right]; exact: val_inj. Qed.
Lemma big2 (f : 'I_2 -> R) : \sum_i f i = Rplus (f 0) (f 1).
Proof.
  rewrite !big_ord_recr big_ord0 /= add0r. rewrite (_ : widen_ord (leqnSn 1) ord_max = 0); last exact: val_inj. by rewrite (_ : ord_max = 1); last exact: val_inj.
Qed.

Definition anti2 : 'M[R]_2 := mx2 0 1 (IZR 2) 0.
Lemma anti_keeps : keeps 1 anti2.
Proof.
  move=> x. rewrite !sq2 !mul2e !mxE /=. have := Rle_0_sqr (x 0 0). rewrite /Rsqr. move: (x 0 0) (x 1 0) => a b. toR. lra.
Qed.
Lemma anti_inv : invmx anti2 = mx2 0 (Rdiv 1 2) 1 0.
Proof.
  have U := keeps_unit anti_keeps Rlt_0_1. rewrite -[RHS](mulKmx U). rewrite (_ : anti2 *m _ = 1%:M); first by rewrite mulmx1.
  apply/matrixP => i j. rewrite mul2e. case: (ord2 i) => ->; case: (ord2 j) => ->; rewrite !mxE /= ?mulr0n ?mulr1n; toR; lra.
Qed.
Lemma anti_case : exists X, lu_mx rnd53 (msub_loop rnd53) anti2 = Ret X /\ Rle (Rabs (X 0 0)) (Rdiv 1 1000000000000) /\ Rle (Rabs (Rminus (X 0 1) (Rdiv 1 2))) (Rdiv 1 1000000000000) /\
  Rle (Rabs (Rminus (X 1 0) 1)) (Rdiv 1 1000000000000) /\ Rle (Rabs (X 1 1)) (Rdiv 1 1000000000000).
Proof.
  have UV := u64_val. have AM (i j : 'I_2) : Rle (Rabs (anti2 i j)) 2. { case: (ord2 i) => ->; case: (ord2 j) => ->; rewrite !mxE /=; toR; rewrite ?Rabs_R0 ?Rabs_R1 ?(Rabs_right 2); lra. }
  have F : Rle (Rmult 2 (Rmult (INR 2) (Rmult (Rmult 7 (Rmult (INR 2 + 2) u64)) (Rmult (pow 2 2) 2)))) 1 by rewrite UV /=; lra.
  have [X [EX BX]] := @mx_dist 2 anti2 1 anti_keeps Rlt_0_1 rnd53 (msub_loop rnd53) 2 rnd53_rel (msub_loop_ok _ rnd53_rel) ltac:(rewrite /=; lra) AM ltac:(lra) F.
  exists X. split=> //. move: (BX 0 0) (BX 0 1) (BX 1 0) (BX 1 1). rewrite anti_inv !mxE /= UV. rewrite !Rminus_0_r. toR. move: (X 0 0) (X 0 1) (X 1 0) (X 1 1) => a b c d A B C D.
  have L : Rle (Rdiv (Rmult 2 (Rmult (1 + 1) (Rmult (Rmult 7 (Rmult (1 + 1 + 2) (Rinv 9007199254740992))) (Rmult (Rmult 2 (Rmult 2 1)) 2)))) (Rmult 1 1)) (Rdiv 1 1000000000000) by lra.
  split; first exact: Rle_trans A L. split; first exact: Rle_trans B L. split; first exact: Rle_trans C L. exact: Rle_trans D L.
Qed.

Definition one2 : 'M[R]_2 := 1%:M.
Lemma one2E i j : one2 i j = if i == j then R1 else R0.
Proof. rewrite mxE. by case: (i == j). Qed.
Lemma gain_case : exists K, gain_f rnd53 (@dot_loop rnd53) (lu_mx rnd53 (msub_loop rnd53)) P2 one2 one2 = Ret K /\
  Rle (Rabs (Rminus (K 0 0) (Rdiv 3 5))) (Rdiv 1 100000000000) /\ Rle (Rabs (Rminus (K 0 1) (Rdiv 1 5))) (Rdiv 1 100000000000).
Proof.
  have T0 := tiny_pos. have T1 := tiny_small. have UV := u64_val.
  have tr1 : one2^T = one2 by rewrite /one2 trmx1.
  have PP : psd P2. { apply: psd2 => x y. have := Rle_0_sqr (Rplus x y). have := Rle_0_sqr x. rewrite /Rsqr. lra. }
  have KS : keeps 1 (one2 *m P2 *m one2^T + one2).
  { apply: keeps_noise => //; first lra. move=> y. rewrite /one2 ProofBls.sq_qf. rewrite Rmult_1_l. exact: Rle_refl. }
  have sz (A : 'M[R]_2) i j : size_mul A one2 i j = Rplus (Rabs (A i j)) tiny64.
  { rewrite size2 !one2E. case: (ord2 j) => -> /=; rewrite Rabs_R0 Rabs_R1; move: (Rabs _) (Rabs _) => a b; lra. }
  have Hz i j : Rle (innov_size P2 one2 one2 i j) 4.
  { rewrite /innov_size mxE tr1 sz size2 !one2E [map_mx _ _ _ _]mxE !one2E. case: (ord2 i) => ->; case: (ord2 j) => ->; rewrite ![P2 _ _]mxE /=; toR; rewrite ?Rabs_R0 ?Rabs_R1 ?(Rabs_right 2); try lra; rewrite (Rabs_right (Rplus _ _)); lra. }
  have w0 : Rle (row_size P2 one2 0) 4. { rewrite /row_size big2 tr1 !sz ![P2 _ _]mxE /=. toR. rewrite Rabs_R1 (Rabs_right 2); lra. }
  have Hq : Rle (Rmult 2 (Rdiv (Rmult (Rmult 24 (Rmult (INR 2 + 1) u64)) (Rmult (Rmult (INR 2) (pow 2 2)) 4)) 1)) 1 by rewrite UV /=; lra.
  have [K [EK BK]] := @mx_gain rnd53 (@dot_loop rnd53) (msub_loop rnd53) 2 2 2 rnd53_rel (dot_loop_ok (rel_rnd rnd53_rel)) (msub_loop_ok _ rnd53_rel) ltac:(rewrite /=; lra) isT isT P2 one2 one2 1 4 KS Rlt_0_1 Hz Hq.
  have US := keeps_unit KS Rlt_0_1. have EG : P2 *m one2^T *m invmx (one2 *m P2 *m one2^T + one2) = mx2 (Rdiv 3 5) (Rdiv 1 5) (Rdiv 1 5) (Rdiv 2 5).
  { rewrite -[RHS](mulmxK US). congr (_ *m _). rewrite tr1 /one2 !mulmx1 mul1mx. apply/matrixP => i j. rewrite mul2e. case: (ord2 i) => ->; case: (ord2 j) => ->; rewrite !mxE /= ?mulr0n ?mulr1n; toR; lra. }
  exists K. split=> //. have B0 := BK 0 0. have B1 := BK 0 1. rewrite EG !mxE /= in B0 B1.
  have L : Rle (Rmult (Rmult (Rdiv 5 2) (Rdiv (Rmult (Rmult 24 (Rmult (1 + 1 + 1) u64)) (Rmult (Rmult (1 + 1) (Rmult 2 (Rmult 2 1))) 4)) 1)) (Rplus (Rdiv (row_size P2 one2 0) 1) tiny64)) (Rdiv 1 100000000000).
  { rewrite UV. move: (row_size _ _ _) w0 => w W. rewrite /Rdiv Rinv_1. lra. }
  split; [exact: Rle_trans B0 L|exact: Rle_trans B1 L].
Qed.
