(** Proofs about the filters, part 5: how the initial estimate is forgotten, and
    bounds on the covariance that do not depend on the prior. *)
From Coq Require Import Reals Lra.
From mathcomp Require Import all_ssreflect all_algebra.
From Verif Require Import Base BaseMx ModelEigen ModelKalman SpecKalman SpecFilter ProofMx ProofKalman ProofKalman2 ProofKalman3 ProofKalman4.
Set Implicit Arguments.
Unset Strict Implicit.
Unset Printing Implicit Defensive.
Import GRing.Theory.
Local Open Scope ring_scope.
Local Open Scope outcome_scope.

Lemma within_mul n m (c : R) (A : 'M[R]_(m, n)) (P : 'M[R]_n) (Q : 'M[R]_m) (d : 'cV[R]_n) :
  Rle 0 c -> psd Q -> within c P d -> within c (A *m P *m A^T + Q) (A *m d).
Proof.
  move=> C [_ HQ] W v. rewrite qfD qf_congr.
  have -> : (v^T *m (A *m d)) 0 0 = ((A^T *m v)^T *m d) 0 0 by rewrite trmx_mul trmxK mulmxA.
  have B := W (A^T *m v). have D := HQ v.
  apply: Rle_trans B _. apply: Rmult_le_compat_l => //. move: (qf P _) (qf Q _) D => a b. rlra.
Qed.
Lemma predict_within n (x y x1 y1 x' y' : 'cV[R]_n) (P Phi Q P1 P2 P' P'' : 'M[R]_n) c :
  Rle 0 c -> psd Q -> within c P (x - y) ->
  filterPredict (DV x) (DM P) (DM Phi) (DM Q) (DV x1) (DM P1) = Ret (true, (DV x', DM P')) ->
  filterPredict (DV y) (DM P) (DM Phi) (DM Q) (DV y1) (DM P2) = Ret (true, (DV y', DM P'')) ->
  P'' = P' /\ within c P' (x' - y').
Proof.
  move=> C HQ W. rewrite !predict_ok => /Ret_inj [_ <- <-] /Ret_inj [_ <- <-]. split=> //.
  rewrite -mulmxBr. exact: within_mul.
Qed.
Lemma update_within n m (x y x1 y1 x' y' : 'cV[R]_n) (z : 'cV[R]_m) (P P1 P2 P' P'' : 'M[R]_n) (H : 'M[R]_(m, n)) (Rk : 'M[R]_m) c :
  Rle 0 c -> psd Rk -> within c P (x - y) ->
  filterUpdate (DV x) (DM P) (DV z) (DM H) (DM Rk) (DV x1) (DM P1) = Ret (true, (DV x', DM P')) ->
  filterUpdate (DV y) (DM P) (DV z) (DM H) (DM Rk) (DV y1) (DM P2) = Ret (true, (DV y', DM P'')) ->
  P'' = P' /\ within c P' (x' - y').
Proof.
  move=> C HR W /update_inv [_ -> ->] /update_inv [_ -> ->]. split=> //. set K := gain P H Rk.
  have -> : x + K *m (z - H *m x) - (y + K *m (z - H *m y)) = (1%:M - K *m H) *m (x - y).
  { rewrite mulmxBl mul1mx !mulmxBr !mulmxA. mx_abel. }
  rewrite /joseph. apply: within_mul => //. exact: psd_congr.
Qed.
Lemma call_within n (o : op n) (x y x' y' : 'cV[R]_n) (P P' P'' : 'M[R]_n) c :
  Rle 0 c -> valid o -> within c P (x - y) ->
  call o (DV x) (DM P) = Ret (true, (DV x', DM P')) -> call o (DV y) (DM P) = Ret (true, (DV y', DM P'')) ->
  P'' = P' /\ within c P' (x' - y').
Proof.
  case: o => [Phi Q|m z H Rk] /= C V W E1 E2.
  - exact: predict_within C V W E1 E2.
  - exact: update_within C (pd_psd V) W E1 E2.
Qed.
Lemma run_within n (h : seq (op n)) c : Rle 0 c -> forall (x y x' y' : 'cV[R]_n) (P P' P'' : 'M[R]_n),
  all_valid h -> psd P -> within c P (x - y) ->
  run h (DV x) (DM P) = Ret (true, (DV x', DM P')) -> run h (DV y) (DM P) = Ret (true, (DV y', DM P'')) ->
  P'' = P' /\ within c P' (x' - y').
Proof.
  move=> C. elim: h => [|o h IH] x y x' y' P P' P'' /=.
  - by move=> _ _ W /Ret_inj [_ <- <-] /Ret_inj [_ <- <-].
  - move=> [V1 V2] HP W. have [x2 [P2 [E2 HP2]]] := call_valid x V1 HP. have [y2 [Q2 [F2 _]]] := call_valid y V1 HP.
    have [EQ W2] := call_within C V1 W E2 F2. rewrite E2 F2 /= EQ. exact: IH.
Qed.
(** A true trajectory without noise is itself a run. *)
Lemma run_truth n (h : seq (op n)) : forall (t t' : 'cV[R]_n) (P : 'M[R]_n), explains h t t' -> all_valid h -> psd P ->
  exists P' : 'M[R]_n, run h (DV t) (DM P) = Ret (true, (DV t', DM P')).
Proof.
  elim: h => [|o h IH] t t' P /=; first by move=> -> _ _; exists P.
  case: o => [Phi Q|m z H Rk] /= X [V1 V2] HP.
  - rewrite predict_ok /=. apply: IH => //. exact: (proj1 (predict_psd (predict_ok _ (0 : 'cV[R]_n) _ _ _ P) HP V1)).
  - case: X => Z X. have [y2 [P2 E2]] := update_finite t t z P H HP V1. rewrite E2 /=.
    have [_ Y _] := update_inv E2. rewrite Z subrr mulmx0 addr0 in Y. rewrite Y in E2 *.
    exact: IH X V2 (update_psd E2 HP (pd_psd V1)).
Qed.
Lemma truth_within n (h : seq (op n)) c (x t x' t' : 'cV[R]_n) (P P' : 'M[R]_n) :
  Rle 0 c -> all_valid h -> psd P -> explains h t t' -> within c P (x - t) ->
  run h (DV x) (DM P) = Ret (true, (DV x', DM P')) -> within c P' (x' - t').
Proof.
  move=> C V HP X W E. have [Q F] := run_truth X V HP. exact: (proj2 (run_within C V HP W E F)).
Qed.
(** In terms of the inverse of the covariance. *)
Lemma cauchy n (P : 'M[R]_n) (v w : 'cV[R]_n) : psd P ->
  Rle (Rmult ((v^T *m P *m w) 0 0) ((v^T *m P *m w) 0 0)) (Rmult (qf P w) (qf P v)).
Proof.
  move=> [S H]. set b := (v^T *m P *m w) 0 0.
  have K s : Rle 0 (qf P v + s * s * qf P w + (s * b + s * b)).
  { have := H (v + s *: w). rewrite qf_add // -scalemxAr mxE mulr2n.
    have -> : qf P (s *: w) = s * s * qf P w; last by [].
    by rewrite /qf [(s *: w)^T]linearZ /= -!scalemxAl -scalemxAr !mxE mulrA. }
  have A0 := H v. have B0 := H w. move: (qf P v) (qf P w) A0 B0 K => a c A0 C0 K.
  case: (Rle_lt_or_eq_dec 0 c C0) => [C1|C1].
  - have := K (Ropp (Rdiv b c)). toR. move=> X.
    have Y : Rle 0 (Rmult c (Rplus (Rplus a (Rmult (Rmult (Ropp (Rdiv b c)) (Ropp (Rdiv b c))) c)) (Rplus (Rmult (Ropp (Rdiv b c)) b) (Rmult (Ropp (Rdiv b c)) b)))).
    { apply: Rmult_le_pos; lra. }
    have Z : Rmult c (Rplus (Rplus a (Rmult (Rmult (Ropp (Rdiv b c)) (Ropp (Rdiv b c))) c)) (Rplus (Rmult (Ropp (Rdiv b c)) b) (Rmult (Ropp (Rdiv b c)) b))) = Rminus (Rmult c a) (Rmult b b).
    { field. lra. }
    lra.
  - rewrite -C1 Rmult_0_l. case: (Req_dec b 0) => [->|B1]; first by rewrite Rmult_0_l; apply: Rle_refl.
    have := K (Ropp (Rdiv (Rplus a 1) b)). rewrite -C1. toR. rewrite Rmult_0_r => X.
    have Z : Rmult (Ropp (Rdiv (Rplus a 1) b)) b = Ropp (Rplus a 1) by field.
    rewrite Z in X. lra.
Qed.
Lemma within_inv n (c : R) (P : 'M[R]_n) (d : 'cV[R]_n) : pd P -> Rle 0 c -> (within c P d <-> Rle (qf (invmx P) d) c).
Proof.
  move=> HP C. have UP := pd_unit HP. have SP := proj1 HP.
  have E1 : qf P (invmx P *m d) = qf (invmx P) d.
  { by rewrite /qf trmx_mul (inv_sym SP) !mulmxA mulmxKV. }
  split.
  - move=> W. have := W (invmx P *m d).
    have -> : ((invmx P *m d)^T *m d) 0 0 = qf (invmx P) d by rewrite /qf trmx_mul (inv_sym SP).
    rewrite E1. have := proj2 (pd_psd (pd_inv HP)) d. set q := qf _ d. move=> Q0 B.
    case: (Rle_lt_or_eq_dec 0 q Q0) => [Q1|<-] //. exact: Rmult_le_reg_r Q1 B.
  - move=> B v. have K := cauchy v (invmx P *m d) (pd_psd HP). rewrite E1 in K.
    have E2 : v^T *m P *m (invmx P *m d) = v^T *m d by rewrite !mulmxA mulmxK.
    rewrite E2 in K. apply: Rle_trans K _. apply: Rmult_le_compat_r B. exact: (proj2 (pd_psd HP)).
Qed.
Lemma run_inv n (h : seq (op n)) (x y x' y' : 'cV[R]_n) (P P' P'' : 'M[R]_n) :
  all_valid h -> pd P -> pd P' ->
  run h (DV x) (DM P) = Ret (true, (DV x', DM P')) -> run h (DV y) (DM P) = Ret (true, (DV y', DM P'')) ->
  Rle (qf (invmx P') (x' - y')) (qf (invmx P) (x - y)).
Proof.
  move=> V HP HP' E F. have C : Rle 0 (qf (invmx P) (x - y)) by apply: (proj2 (pd_psd (pd_inv HP))).
  apply/(within_inv _ HP' C). apply: (proj2 (run_within C V (pd_psd HP) _ E F)).
  apply/(within_inv _ HP C). exact: Rle_refl.
Qed.
Lemma update_full n m (x x1 x' : 'cV[R]_n) (z : 'cV[R]_m) (P P1 P' : 'M[R]_n) (H : 'M[R]_(m, n)) (Rk : 'M[R]_m) (L : 'M[R]_(n, m)) :
  psd P -> psd Rk -> L *m H = 1%:M ->
  filterUpdate (DV x) (DM P) (DV z) (DM H) (DM Rk) (DV x1) (DM P1) = Ret (true, (DV x', DM P')) ->
  loewner P' (L *m Rk *m L^T).
Proof.
  move=> HP HR LH E. have := update_optimal E L HP HR. by rewrite /joseph LH subrr mul0mx mul0mx add0r.
Qed.
(** Repeating a measurement that fixes the whole state. *)
Lemma loewnerD n (A B C D : 'M[R]_n) : loewner A B -> loewner C D -> loewner (A + C) (B + D).
Proof. move=> H K v. have := H v. have := K v. rewrite !qfD. rlra. Qed.
Lemma average_step n m (P P' : 'M[R]_n) (H : 'M[R]_(m, n)) (Rk : 'M[R]_m) (L : 'M[R]_(n, m)) (a : R)
  (x x1 x' : 'cV[R]_n) (z : 'cV[R]_m) (P1 : 'M[R]_n) :
  Rlt 0 a -> psd P -> psd Rk -> L *m H = 1%:M -> loewner P (Rinv a *: (L *m Rk *m L^T)) ->
  filterUpdate (DV x) (DM P) (DV z) (DM H) (DM Rk) (DV x1) (DM P1) = Ret (true, (DV x', DM P')) ->
  loewner P' (Rinv (Rplus a 1) *: (L *m Rk *m L^T)).
Proof.
  move=> A HP HR LH B E. set k := Rinv (Rplus a 1). have O := update_optimal E (k *: L) HP HR.
  have K : Rmult k (Rplus a 1) = R1 by rewrite /k; field; lra.
  rewrite -scalemxAl LH in O. have X : 1%:M - k *: 1%:M = (Rmult k a)%:M :> 'M[R]_n.
  { rewrite scale_scalar_mx mulr1 -raddfB /=. congr (_%:M). toR. lra. }
  rewrite X [(k *: L)^T]linearZ /= -!scalemxAl -!scalemxAr scalerA tr_scalar_mx mul_scalar_mx mul_mx_scalar scalerA in O.
  move=> v. apply: Rle_trans (O v) _. have Bv := B v. rewrite qfD !qfZ. rewrite qfZ in Bv.
  move: (qf P v) (qf (L *m Rk *m L^T) v) Bv => p r Bv. toR.
  have K0 : Rlt 0 k by apply: Rinv_0_lt_compat; lra.
  have P1' : Rle (Rmult a p) r. { have := Rmult_le_compat_l a _ _ (Rlt_le _ _ A) Bv. by rewrite -Rmult_assoc Rinv_r ?Rmult_1_l; last lra. }
  have S : Rle (Rmult (Rmult k k) (Rmult a (Rmult a p))) (Rmult (Rmult k k) (Rmult a r)).
  { apply: Rmult_le_compat_l; first by apply: Rmult_le_pos; lra. apply: Rmult_le_compat_l => //. lra. }
  have T : Rmult k r = Rplus (Rmult (Rmult k k) (Rmult a r)) (Rmult (Rmult k k) r).
  { have -> : Rmult k r = Rmult (Rmult k (Rmult k (Rplus a 1))) r by rewrite K Rmult_1_r. ring. }
  rewrite T. lra.
Qed.
Lemma average n m (H : 'M[R]_(m, n)) (Rk : 'M[R]_m) (L : 'M[R]_(n, m)) : pd Rk -> L *m H = 1%:M ->
  forall (zs : seq 'cV[R]_m) (a : R) (x x' : 'cV[R]_n) (P P' : 'M[R]_n), Rlt 0 a -> psd P -> loewner P (Rinv a *: (L *m Rk *m L^T)) ->
  run [seq Update z H Rk | z <- zs] (DV x) (DM P) = Ret (true, (DV x', DM P')) ->
  loewner P' (Rinv (Rplus a (INR (size zs))) *: (L *m Rk *m L^T)).
Proof.
  move=> HR LH. elim=> [|z zs IH] a x x' P P' A HP B.
  - move=> /Ret_inj [_ _ <-]. by rewrite /= Rplus_0_r.
  - rewrite /=. have [y [Q E]] := update_finite x x z P H HP HR. rewrite E /=. move=> F.
    have A1 : Rlt 0 (Rplus a 1) by lra.
    have := IH _ _ _ _ _ A1 (update_psd E HP (pd_psd HR)) (average_step A HP (pd_psd HR) LH B E) F.
    by rewrite -/(INR (size zs).+1) S_INR Rplus_assoc [Rplus 1 _]Rplus_comm.
Qed.
Lemma average_any_prior n m (H : 'M[R]_(m, n)) (Rk : 'M[R]_m) (L : 'M[R]_(n, m)) (z : 'cV[R]_m) (zs : seq 'cV[R]_m)
   (x x' : 'cV[R]_n) (P P' : 'M[R]_n) : pd Rk -> L *m H = 1%:M -> psd P ->
  run [seq Update z H Rk | z <- z :: zs] (DV x) (DM P) = Ret (true, (DV x', DM P')) ->
  loewner P' (Rinv (INR (size (z :: zs))) *: (L *m Rk *m L^T)).
Proof.
  move=> HR LH HP /=. have [y [Q E]] := update_finite x x z P H HP HR. rewrite E /= => F.
  have B : loewner Q (Rinv 1 *: (L *m Rk *m L^T)) by rewrite Rinv_1 scale1r; exact: update_full HP (pd_psd HR) LH E.
  have := average HR LH Rlt_0_1 (update_psd E HP (pd_psd HR)) B F.
  by rewrite -/(INR (size zs).+1) S_INR Rplus_comm.
Qed.
