(** The unscented prediction in rounded arithmetic. *)
From Coq Require Import Reals Lra Psatz.
From mathcomp Require Import all_ssreflect all_algebra.
From Verif Require Import Base BaseMx ModelEigen ModelKalman ModelDate ModelFilterFloat ModelUkfFloat SpecFloatOps SpecKalman SpecFilterFloat SpecLdltFloat SpecUkfFloat
  ProofMx ProofKalman ProofFilterFloat ProofUkfFloat.
Set Implicit Arguments.
Unset Strict Implicit.
Unset Printing Implicit Defensive.
Import GRing.Theory.
Local Open Scope ring_scope.

Lemma lsum_seq (I : Type) (f : I -> R) s : lsum f s = \sum_(i <- s) f i.
Proof. elim: s => [|i s IH] /=; [by rewrite big_nil|]. by rewrite big_cons IH. Qed.
Lemma lsum_enum k (f : 'I_k -> R) : lsum f (enum 'I_k) = \sum_i f i.
Proof. by rewrite lsum_seq big_enum. Qed.
Lemma acc_foldl (I : Type) r c (t : I -> R) s : foldl (fun s i => r (Rplus s (t i))) c s = acc r c t s.
Proof. elim: s c => [|i s IH] c //=. Qed.
Lemma length_size (I : Type) (s : seq I) : length s = size s. Proof. by []. Qed.
Lemma len_enum k : length (enum 'I_k) = k. Proof. by rewrite length_size size_enum_ord. Qed.
Lemma units_G k p : G (enum 'I_k) p = units k p.
Proof. by rewrite /G /units len_enum. Qed.

Section U.
Variables (r : R -> R) (k : nat) (W : 'cV[R]_k).
Local Notation w := (weights W).
Lemma mean_mn n (Y : 'M[R]_(n, k)) a : SpecKalman.mean w (points Y) a 0 = mn w (enum 'I_k) (fun i => Y a i).
Proof. rewrite /SpecKalman.mean /mn lsum_enum summxE. apply: eq_bigr => i _. by rewrite !mxE. Qed.
Lemma meanf_mn n (Y : 'M[R]_(n, k)) a : mean_f r W Y a 0 = mnf r w (enum 'I_k) (fun i => Y a i).
Proof. by rewrite mxE /acc_f acc_foldl. Qed.
Lemma cov_sc n (Y : 'M[R]_(n, k)) a b : cov w (points Y) a b = sc w (enum 'I_k) (mn w (enum 'I_k) (fun i => Y a i)) (fun i => Y a i) (mn w (enum 'I_k) (fun i => Y b i)) (fun i => Y b i).
Proof.
  rewrite /cov /sc lsum_enum summxE -!mean_mn. apply: eq_bigr => i _. rewrite mxE mxE big_ord_recl big_ord0 !mxE -!/(_ + _). rewrite addr0. by rewrite mulrA.
Qed.
Lemma scatf_sc n m (C : 'M[R]_(n, m)) (A : 'M[R]_(n, k)) a (B : 'M[R]_(m, k)) b p q :
  scatter_f r C W A a B b p q = scf r w (enum 'I_k) (C p q) (a p 0) (fun i => A p i) (b q 0) (fun i => B q i).
Proof. by rewrite mxE /acc_f acc_foldl. Qed.
Lemma slip_me n (Y : 'M[R]_(n, k)) a : slip W Y a = me w (enum 'I_k) (fun i => Y a i).
Proof. by rewrite /slip /me units_G lsum_enum. Qed.

Hypothesis Hr : rel_ok r.
Hypothesis Hk : Rle (INR k) 1000000.
Lemma short_enum : Rle (INR (length (enum 'I_k))) 1000000. Proof. by rewrite len_enum. Qed.

Lemma mean_close n (Y : 'M[R]_(n, k)) a : Rle (Rabs (Rminus (mean_f r W Y a 0) (SpecKalman.mean w (points Y) a 0))) (slip W Y a).
Proof. rewrite meanf_mn mean_mn slip_me. exact: (@mean_err _ r Hr w (enum 'I_k) short_enum). Qed.

Section P.
Variables (n : nat) (Y : 'M[R]_(n, k)) (Q : 'M[R]_n) (a b : 'I_n).
Local Notation Pf := ((filterUkfPredict_f r W Y Q).2).
Lemma pf_sc p q : Pf p q = scf r w (enum 'I_k) (Q p q) (mnf r w (enum 'I_k) (fun i => Y p i)) (fun i => Y p i) (mnf r w (enum 'I_k) (fun i => Y q i)) (fun i => Y q i).
Proof. by rewrite /filterUkfPredict_f /= scatf_sc !meanf_mn. Qed.

Lemma any_weights : let m := SpecKalman.mean w (points Y) in
  Rle (Rabs (Rminus (Pf a b) (Rplus (Q a b) (cov w (points Y) a b))))
  (Rplus (Rplus (Rmult (units k 4) (Rplus (Rabs (Q a b)) (\sum_i Rmult (Rabs (W i 0)) (Rmult (Rplus (Rabs (Rminus (Y a i) (m a 0))) (slip W Y a)) (Rplus (Rabs (Rminus (Y b i) (m b 0))) (slip W Y b))))))
    (Rmult (Rabs (Rminus 1 (\sum_i W i 0))) (Rplus (Rmult (slip W Y a) (Rabs (m b 0))) (Rmult (slip W Y b) (Rabs (m a 0))))))
    (Rmult (Rabs (\sum_i W i 0)) (Rmult (slip W Y a) (slip W Y b)))).
Proof.
  move=> m. have := @predict_any _ r Hr w (enum 'I_k) short_enum (Q a b) (fun i => Y a i) (fun i => Y b i). cbv zeta.
  rewrite -!cov_sc -!mean_mn -!slip_me units_G -pf_sc lsum_enum /wt lsum_enum. by [].
Qed.
Hypothesis D : distribution W.
Lemma dist_weights :
  Rle (Rabs (Rminus (Pf a b) (Rplus (Q a b) (cov w (points Y) a b))))
  (Rplus (Rmult (units k 4) (Rplus (Rabs (Q a b)) (Rmult (sqrt (Rplus (cov w (points Y) a a) (Rmult (slip W Y a) (slip W Y a)))) (sqrt (Rplus (cov w (points Y) b b) (Rmult (slip W Y b) (slip W Y b)))))))
    (Rmult (slip W Y a) (slip W Y b))).
Proof.
  case: D => D0 D1. have W1 : wt w (enum 'I_k) = 1 by rewrite /wt lsum_enum.
  have := @predict_dist _ r Hr w (enum 'I_k) short_enum D0 W1 (Q a b) (fun i => Y a i) (fun i => Y b i). cbv zeta.
  rewrite -!cov_sc -!slip_me units_G -pf_sc. by [].
Qed.
Lemma dist_asym : Q a b = Q b a ->
  Rle (Rabs (Rminus (Pf a b) (Pf b a)))
  (Rmult (Rmult 2 (units k 4)) (Rplus (Rabs (Q a b)) (Rmult (sqrt (Rplus (cov w (points Y) a a) (Rmult (slip W Y a) (slip W Y a)))) (sqrt (Rplus (cov w (points Y) b b) (Rmult (slip W Y b) (slip W Y b))))))).
Proof.
  move=> QS. rewrite !pf_sc -QS. case: D => D0 D1. have W1 : wt w (enum 'I_k) = 1 by rewrite /wt lsum_enum.
  have := @asym_dist _ r Hr w (enum 'I_k) short_enum D0 W1 (Q a b) (fun i => Y a i) (fun i => Y b i). cbv zeta.
  rewrite -!cov_sc -!slip_me units_G. by [].
Qed.
Lemma dist_variance : Rle 0 (Q a a) -> Rle 0 (Pf a a).
Proof. case: D => D0 D1 Q0. rewrite pf_sc. exact: scf_sign. Qed.
End P.
End U.
