(** Proofs about the filters, part 1: what the model computes. *)
From Coq Require Import Reals Lra.
From mathcomp Require Import all_ssreflect all_algebra.
From Verif Require Import Base BaseMx ModelEigen ModelKalman SpecKalman SpecFilter ProofMx.
Set Implicit Arguments.
Unset Strict Implicit.
Unset Printing Implicit Defensive.
Import GRing.Theory.
Local Open Scope ring_scope.
Local Open Scope outcome_scope.

(** ** Eigen operations at matching sizes *)
Lemma as_mx_ok r c (A : 'M[R]_(r, c)) : as_mx r c (DM A) = Ret A.
Proof.
  rewrite /as_mx /=. case: eq_comparable => // e1. case: eq_comparable => // e2.
  by rewrite (eq_irrelevance e1 erefl) (eq_irrelevance e2 erefl) castmx_id.
Qed.
Lemma as_cv_ok n (v : 'cV[R]_n) : as_cv n (DV v) = Ret v.
Proof.
  rewrite /as_cv /=. case: eq_comparable => // e. by rewrite (eq_irrelevance e erefl) castmx_id.
Qed.
Lemma mul_ok n m p (A : 'M[R]_(n, m)) (B : 'M[R]_(m, p)) : mul (DM A) (DM B) = Ret (DM (A *m B)).
Proof. by rewrite /mul as_mx_ok. Qed.
Lemma add_ok n m (A B : 'M[R]_(n, m)) : add (DM A) (DM B) = Ret (DM (A + B)).
Proof. by rewrite /add as_mx_ok. Qed.
Lemma sub_ok n m (A B : 'M[R]_(n, m)) : sub (DM A) (DM B) = Ret (DM (A - B)).
Proof. by rewrite /sub as_mx_ok. Qed.
Lemma mulv_ok n m (A : 'M[R]_(n, m)) (x : 'cV[R]_m) : mulv (DM A) (DV x) = Ret (DV (A *m x)).
Proof. by rewrite /mulv as_cv_ok. Qed.
Lemma addv_ok n (x y : 'cV[R]_n) : addv (DV x) (DV y) = Ret (DV (x + y)).
Proof. by rewrite /addv as_cv_ok. Qed.
Lemma subv_ok n (x y : 'cV[R]_n) : subv (DV x) (DV y) = Ret (DV (x - y)).
Proof. by rewrite /subv as_cv_ok. Qed.
Lemma dotv_ok n (x y : 'cV[R]_n) : dotv (DV x) (DV y) = Ret ((x^T *m y) 0 0).
Proof. by rewrite /dotv as_cv_ok. Qed.
Lemma inverse_ok n (A : 'M[R]_n) : inverse (DM A) = if A \in unitmx then Ret (DM (invmx A)) else NonFinite.
Proof. by rewrite /inverse as_mx_ok. Qed.
Lemma coef_ok n (v : 'cV[R]_n) (i : 'I_n) : coef (DV v) i = Ret (v i 0).
Proof. by rewrite /coef /= valK. Qed.
Lemma colv_ok n m (A : 'M[R]_(n, m)) (i : 'I_m) : colv (DM A) i = Ret (DV (col i A)).
Proof. by rewrite /colv /= valK. Qed.

Lemma wrong_size_ok r c (A : 'M[R]_(r, c)) : wrong_size (DM A) r c = false.
Proof. by rewrite /wrong_size /= !eqxx. Qed.
Lemma right_size (A : dmat) r c : wrong_size A r c = false -> exists B : 'M[R]_(r, c), A = DM B.
Proof.
  rewrite /wrong_size. case: A => r' c' B /=. move/norP => [/negPn/eqP Er /negPn/eqP Ec]. subst. by exists B.
Qed.
Lemma right_len (v : dvec) n : (dv_n v != n) = false -> exists w : 'cV[R]_n, v = DV w.
Proof. case: v => n' w /= /negPn/eqP E. subst. by exists w. Qed.
Lemma wrong_sizeP A r c : wrong_size A r c = false <-> has_size A r c.
Proof.
  rewrite /wrong_size /has_size. split.
  - by move/norP => [/negPn/eqP -> /negPn/eqP ->].
  - by move=> [-> ->]; rewrite !eqxx.
Qed.

Ltac eig := do !rewrite ?mul_ok ?add_ok ?sub_ok ?mulv_ok ?addv_ok ?subv_ok ?dotv_ok /=.

(** ** Loops *)
Lemma loop_from_ok A (f : nat -> A -> outcome A) (g : nat -> A -> A) n : forall i a,
  (forall k a, (i <= k < i + n)%N -> f k a = Ret (g k a)) ->
  loop_from f i n a = Ret (foldl (fun a k => g k a) a (iota i n)).
Proof.
  elim: n => [|n IH] i a H //=. rewrite H ?leqnn ?addnS ?ltnS ?leq_addr //=. apply: IH => k b Hk.
  apply: H. move: Hk. rewrite addSn addnS => /andP [H1 H2]. by rewrite (ltnW H1) H2.
Qed.

(** A loop that adds a matrix at each step computes a sum. *)
Lemma loop_sum r c m (F : 'I_m -> 'M[R]_(r, c)) (f : nat -> dmat -> outcome dmat) (A0 : 'M[R]_(r, c)) :
  (forall (i : 'I_m) (A : 'M[R]_(r, c)), f i (DM A) = Ret (DM (A + F i))) ->
  loop m f (DM A0) = Ret (DM (A0 + \sum_i F i)).
Proof.
  move=> H. rewrite /loop.
  suff G : forall k i (A : 'M[R]_(r, c)), (i + k = m)%N ->
     loop_from f i k (DM A) = Ret (DM (A + \sum_(j < m | (i <= j)%N) F j)).
  { rewrite (G m 0%N A0) //. }
  elim=> [|k IH] i A E.
  - rewrite addn0 in E. rewrite /= big_pred0 ?addr0 // => j. by rewrite E leqNgt ltn_ord.
  - rewrite /=. have Hi : (i < m)%N by rewrite -E addnS ltnS leq_addr.
    have := H (Ordinal Hi) A; rewrite /= => ->. rewrite /=. rewrite IH ?addSnnS //.
    congr (Ret (DM _)). rewrite [in RHS](bigD1 (Ordinal Hi)) //= addrA. congr (_ + _).
    apply: eq_bigl => j. rewrite ltn_neqAle eq_sym andbC. congr (_ && _). 
Qed.
Lemma loop_sumv r m (F : 'I_m -> 'cV[R]_r) (f : nat -> dvec -> outcome dvec) (A0 : 'cV[R]_r) :
  (forall (i : 'I_m) (A : 'cV[R]_r), f i (DV A) = Ret (DV (A + F i))) ->
  loop m f (DV A0) = Ret (DV (A0 + \sum_i F i)).
Proof.
  move=> H. rewrite /loop.
  suff G : forall k i (A : 'cV[R]_r), (i + k = m)%N ->
     loop_from f i k (DV A) = Ret (DV (A + \sum_(j < m | (i <= j)%N) F j)).
  { rewrite (G m 0%N A0) //. }
  elim=> [|k IH] i A E.
  - rewrite addn0 in E. rewrite /= big_pred0 ?addr0 // => j. by rewrite E leqNgt ltn_ord.
  - rewrite /=. have Hi : (i < m)%N by rewrite -E addnS ltnS leq_addr.
    have := H (Ordinal Hi) A; rewrite /= => ->. rewrite /=. rewrite IH ?addSnnS //.
    congr (Ret (DV _)). rewrite [in RHS](bigD1 (Ordinal Hi)) //= addrA. congr (_ + _).
    apply: eq_bigl => j. rewrite ltn_neqAle eq_sym andbC. congr (_ && _). 
Qed.

(** ** Stores *)
Lemma setv_same s a : setv s a (vecs s a) = s.
Proof.
  case: s => v m. rewrite /setv /=. congr ST. apply: FunctionalExtensionality.functional_extensionality => b.
  by case: eqP => [->|].
Qed.
Lemma setm_same s a : setm s a (mats s a) = s.
Proof.
  case: s => v m. rewrite /setm /=. congr ST. apply: FunctionalExtensionality.functional_extensionality => b.
  by case: eqP => [->|].
Qed.
Lemma setv_setv s a x y : setv (setv s a x) a y = setv s a y.
Proof.
  rewrite /setv /=. congr ST. apply: FunctionalExtensionality.functional_extensionality => b. by case: eqP.
Qed.
Lemma setm_setm s a x y : setm (setm s a x) a y = setm s a y.
Proof.
  rewrite /setm /=. congr ST. apply: FunctionalExtensionality.functional_extensionality => b. by case: eqP.
Qed.
Lemma setm_setv s a b x A : setm (setv s a x) b A = setv (setm s b A) a x.
Proof. by []. Qed.

(** Write the outputs of a call back. *)
Definition write (s : store) (x1 P1 : nat) (r : outcome (bool * (dvec * dmat))) : outcome (bool * store) :=
  r <- r ;; Ret (r.1, setm (setv s x1 r.2.1) P1 r.2.2).

Ltac ifsame := match goal with |- (if ?b then _ else _) = _ => destruct b end;
  [cbn [write outputs bind fst snd fresh vecs mats nth]; rewrite setv_same setm_same; reflexivity|].

Lemma predict_alias xk Pk Phik Qk x1 P1 s :
  filterPredict_at xk Pk Phik Qk x1 P1 s =
  write s x1 P1 (filterPredict (vecs s xk) (mats s Pk) (mats s Phik) (mats s Qk) (vecs s x1) (mats s P1)).
Proof.
  rewrite /filterPredict_at /filterPredict /filterPredict_at /=.
  do 5 ifsame.
  case: (mulv _ _) => /= [x||||]; [|reflexivity..]. case: (mul _ _) => /= [a||||]; [|reflexivity..]. case: (mul _ _) => /= [b||||]; [|reflexivity..].
  case: (add _ _) => /= [p||||]; [|reflexivity..]. reflexivity.
Qed.

Lemma update_alias xk Pk zk H Rk x1 P1 s :
  filterUpdate_at xk Pk zk H Rk x1 P1 s =
  write s x1 P1 (filterUpdate (vecs s xk) (mats s Pk) (vecs s zk) (mats s H) (mats s Rk) (vecs s x1) (mats s P1)).
Proof.
  rewrite /filterUpdate_at /filterUpdate /filterUpdate_at /=.
  do 5 ifsame.
  case: (mulv _ _) => /= [hx||||]; [|reflexivity..]. case: (subv _ _) => /= [nu||||]; [|reflexivity..]. case: (mul _ _) => /= [ph||||]; [|reflexivity..].
  case: (mul _ _) => /= [hp||||]; [|reflexivity..]. case: (mul _ _) => /= [hph||||]; [|reflexivity..]. case: (add _ _) => /= [S||||]; [|reflexivity..].
  case: (inverse _) => /= [Si||||]; [|reflexivity..]. case: (mul _ _) => /= [K||||]; [|reflexivity..]. case: (mulv _ _) => /= [kn||||]; [|reflexivity..].
  case: (addv _ _) => /= [x||||]; [|reflexivity..]. case: (mul _ _) => /= [kh||||]; [|reflexivity..]. case: (sub _ _) => /= [ikh||||]; [|reflexivity..].
  case: (mul _ _) => /= [a||||]; [|reflexivity..]. case: (mul _ _) => /= [b||||]; [|reflexivity..]. case: (mul _ _) => /= [kr||||]; [|reflexivity..].
  case: (mul _ _) => /= [krk||||]; [|reflexivity..]. case: (add _ _) => /= [p||||]; [|reflexivity..]. reflexivity.
Qed.

Lemma ukfUpdate_alias xk Pk yi Wi zi zk Rk x1 P1 s :
  filterUkfUpdate_at xk Pk yi Wi zi zk Rk x1 P1 s =
  write s x1 P1 (filterUkfUpdate (vecs s xk) (mats s Pk) (mats s yi) (vecs s Wi) (mats s zi) (vecs s zk) (mats s Rk)
                   (vecs s x1) (mats s P1)).
Proof.
  rewrite /filterUkfUpdate_at /filterUkfUpdate /filterUkfUpdate_at /=.
  do 7 ifsame.
  case: (loop _ _ _) => /= [zhat||||]; [|reflexivity..]. case: (loop _ _ _) => /= [S||||]; [|reflexivity..]. case: (loop _ _ _) => /= [T||||]; [|reflexivity..].
  case: (inverse _) => /= [Si||||]; [|reflexivity..]. case: (mul _ _) => /= [K||||]; [|reflexivity..].
  ifsame.
  case: (subv _ _) => /= [nu||||]; [|reflexivity..]. case: (mulv _ _) => /= [kn||||]; [|reflexivity..].
  case: (addv _ _) => /= [x||||]; [|reflexivity..]. case: (mul _ _) => /= [a||||]; [|reflexivity..]. case: (mul _ _) => /= [b||||]; [|reflexivity..].
  case: (sub _ _) => /= [p||||]; [|reflexivity..]. reflexivity.
Qed.

Lemma loop_steps A (f : nat -> A -> outcome A) (g : nat -> A) m :
  (forall i, (i < m)%N -> f i (g i) = Ret (g i.+1)) -> loop m f (g 0%N) = Ret (g m).
Proof.
  move=> H. rewrite /loop. suff G : forall k i, (i + k = m)%N -> loop_from f i k (g i) = Ret (g m) by apply: G.
  elim=> [|k IH] i E /=; first by rewrite -E addn0. rewrite H /=; last by rewrite -E addnS ltnS leq_addr.
  apply: IH. by rewrite addSnnS.
Qed.
Definition psum r c m (F : 'I_m -> 'M[R]_(r, c)) (i : nat) : 'M[R]_(r, c) := \sum_(j < m | (j < i)%N) F j.
Lemma psum0 r c m (F : 'I_m -> 'M[R]_(r, c)) : psum F 0 = 0.
Proof. by rewrite /psum big_pred0. Qed.
Lemma psumS r c m (F : 'I_m -> 'M[R]_(r, c)) (i : 'I_m) : psum F i.+1 = psum F i + F i.
Proof.
  rewrite /psum [in LHS](bigD1 i) /= ?ltnS ?leqnn // addrC. congr (_ + _).
  apply: eq_bigl => j. by rewrite ltnS ltn_neqAle andbC.
Qed.
Lemma psum_all r c m (F : 'I_m -> 'M[R]_(r, c)) : psum F m = \sum_i F i.
Proof. by apply: eq_bigl => j; rewrite ltn_ord. Qed.

Lemma add_scatter_ok n p m (acc : 'M[R]_(n, p)) (W : 'cV[R]_m) (a : 'M[R]_(n, m)) (am : 'cV[R]_n) (b : 'M[R]_(p, m)) (bm : 'cV[R]_p) (i : 'I_m) :
  add_scatter (DM acc) (DV W) (DM a) (DV am) (DM b) (DV bm) i =
  Ret (DM (acc + W i 0 *: ((col i a - am) *m (col i b - bm)^T))).
Proof. by rewrite /add_scatter coef_ok /= !colv_ok /= subv_ok /= ?colv_ok /= subv_ok /= add_ok scalemxAl. Qed.

(** Weighted mean and scatter of the columns of a matrix. *)
Definition wmean n m (W : 'cV[R]_m) (y : 'M[R]_(n, m)) : 'cV[R]_n := \sum_i W i 0 *: col i y.
Definition wscat n p m (W : 'cV[R]_m) (y : 'M[R]_(n, m)) (ym : 'cV[R]_n) (z : 'M[R]_(p, m)) (zm : 'cV[R]_p) : 'M[R]_(n, p) :=
  \sum_i W i 0 *: ((col i y - ym) *m (col i z - zm)^T).

Lemma ukfPredict_at n Wi yi Qk x1 P1 s (W : 'cV[R]_(2 * n + 1)) (y : 'M[R]_(n, 2 * n + 1)) (Q P : 'M[R]_n) (x : 'cV[R]_n) :
  vecs s Wi = DV W -> mats s yi = DM y -> mats s Qk = DM Q -> vecs s x1 = DV x -> mats s P1 = DM P ->
  filterUkfPredict_at Wi yi Qk x1 P1 s =
  Ret (true, setm (setv s x1 (DV (wmean W y))) P1 (DM (Q + wscat W y (wmean W y) y (wmean W y)))).
Proof.
  move=> EW Ey EQ Ex EP.
  have N1 : Wi != x1.
  { apply/eqP => E. subst Wi. rewrite Ex in EW. move: (f_equal dv_n EW) => /= N.
    move: N. rewrite mul2n -addnn -addnA -[X in X = _]addn0 => /addnI. by rewrite addn1. }
  have N2 : yi != P1.
  { apply/eqP => E. subst yi. rewrite EP in Ey. move: (f_equal dm_c Ey) => /= N.
    move: N. rewrite mul2n -addnn -addnA -[X in X = _]addn0 => /addnI. by rewrite addn1. }
  rewrite /filterUkfPredict_at Ex EP EW Ey EQ /= !wrong_size_ok eqxx /=.
  set s0 := setv s x1 (zerov n).
  set F := fun i : 'I_(2 * n + 1) => W i 0 *: col i y.
  rewrite (_ : s0 = (fun i => setv s x1 (DV (psum F i))) 0%N); last by rewrite psum0.
  rewrite (loop_steps (g := fun i => setv s x1 (DV (psum F i)))); last first.
  { move=> i Hi. rewrite /setv /= (negbTE N1) eqxx EW Ey.
    rewrite (coef_ok W (Ordinal Hi)) /= (colv_ok y (Ordinal Hi)) /=.
    rewrite addv_ok /=. congr Ret. rewrite -/(setv s x1 (DV (psum F i))) -/(setv (setv s x1 _) x1 _) setv_setv.
    by rewrite (psumS F (Ordinal Hi)). }
  rewrite /=. rewrite psum_all -/(wmean W y). set xm := wmean W y. rewrite /= -/(setv s x1 (DV xm)) EQ.
  set s1 := setv s x1 (DV xm).
  set G := fun i : 'I_(2 * n + 1) => W i 0 *: ((col i y - xm) *m (col i y - xm)^T).
  rewrite (_ : setm s1 P1 (DM Q) = (fun i => setm s1 P1 (DM (Q + psum G i))) 0%N); last by rewrite psum0 addr0.
  rewrite (loop_steps (g := fun i => setm s1 P1 (DM (Q + psum G i)))); last first.
  { move=> i Hi. rewrite /= (negbTE N1) (negbTE N2) !eqxx EW Ey.
    rewrite (add_scatter_ok _ W y xm y xm (Ordinal Hi)) /=. congr Ret. rewrite -/s1 setm_setm.
    by rewrite (psumS G (Ordinal Hi)) addrA. }
  by rewrite /= psum_all.
Qed.

(** ** Values *)
Definition gain n m (P : 'M[R]_n) (H : 'M[R]_(m, n)) (Rk : 'M[R]_m) : 'M[R]_(n, m) :=
  P *m H^T *m invmx (H *m P *m H^T + Rk).
Definition joseph n m (P : 'M[R]_n) (H : 'M[R]_(m, n)) (Rk : 'M[R]_m) (K : 'M[R]_(n, m)) : 'M[R]_n :=
  (1%:M - K *m H) *m P *m (1%:M - K *m H)^T + K *m Rk *m K^T.

Lemma predict_ok n (x x1 : 'cV[R]_n) (P Phi Q P1 : 'M[R]_n) :
  filterPredict (DV x) (DM P) (DM Phi) (DM Q) (DV x1) (DM P1) =
  Ret (true, (DV (Phi *m x), DM (Phi *m P *m Phi^T + Q))).
Proof. by rewrite /filterPredict /filterPredict_at /= !wrong_size_ok eqxx /= mulv_ok /= !mul_ok /= mul_ok /= add_ok. Qed.

Lemma update_ok n m (x x1 : 'cV[R]_n) (z : 'cV[R]_m) (P P1 : 'M[R]_n) (H : 'M[R]_(m, n)) (Rk : 'M[R]_m) :
  filterUpdate (DV x) (DM P) (DV z) (DM H) (DM Rk) (DV x1) (DM P1) =
  if H *m P *m H^T + Rk \in unitmx then
    Ret (true, (DV (x + gain P H Rk *m (z - H *m x)), DM (joseph P H Rk (gain P H Rk))))
  else NonFinite.
Proof.
  rewrite /filterUpdate /filterUpdate_at /= !wrong_size_ok !eqxx /= mulv_ok /= subv_ok /= /tr /=.
  rewrite mul_ok /= mul_ok /= mul_ok /= add_ok /= inverse_ok. case: ifP => // _ /=.
  rewrite mul_ok /= -/(gain P H Rk). set K := gain _ _ _.
  by rewrite mulv_ok /= addv_ok /= mul_ok /= sub_ok /= mul_ok /= mul_ok /= mul_ok /= mul_ok /= add_ok.
Qed.

Lemma ukfPredict_ok n (W : 'cV[R]_(2 * n + 1)) (y : 'M[R]_(n, 2 * n + 1)) (Q P1 : 'M[R]_n) (x1 : 'cV[R]_n) :
  filterUkfPredict (DV W) (DM y) (DM Q) (DV x1) (DM P1) =
  Ret (true, (DV (wmean W y), DM (Q + wscat W y (wmean W y) y (wmean W y)))).
Proof. by rewrite /filterUkfPredict (@ukfPredict_at n _ _ _ _ _ _ W y Q P1 x1). Qed.

Lemma ukfUpdate_ok n m (x x1 : 'cV[R]_n) (P P1 : 'M[R]_n) (y : 'M[R]_(n, 2 * n + 1)) (W : 'cV[R]_(2 * n + 1))
    (zi : 'M[R]_(m, 2 * n + 1)) (z : 'cV[R]_m) (Rk : 'M[R]_m) :
  let zh := wmean W zi in
  let S := Rk + wscat W zi zh zi zh in
  let K := wscat W y x zi zh *m invmx S in
  filterUkfUpdate (DV x) (DM P) (DM y) (DV W) (DM zi) (DV z) (DM Rk) (DV x1) (DM P1) =
  if S \in unitmx then Ret (true, (DV (x + K *m (z - zh)), DM (P - K *m S *m K^T))) else NonFinite.
Proof.
  move=> zh S K. rewrite /filterUkfUpdate /filterUkfUpdate_at /= !wrong_size_ok !eqxx /=.
  rewrite (loop_sumv (F := fun i => W i 0 *: col i zi)) /=; last first.
  { move=> i A. by rewrite coef_ok /= colv_ok /= addv_ok. }
  rewrite add0r -/(wmean W zi) -/zh.
  rewrite (loop_sum (F := fun i => W i 0 *: ((col i zi - zh) *m (col i zi - zh)^T))) /=; last first.
  { move=> i A. by rewrite add_scatter_ok. }
  rewrite -/(wscat W zi zh zi zh) -/S.
  rewrite (loop_sum (F := fun i => W i 0 *: ((col i y - x) *m (col i zi - zh)^T))) /=; last first.
  { move=> i A. by rewrite add_scatter_ok. }
  rewrite add0r -/(wscat W y x zi zh) inverse_ok. case: ifP => // _ /=.
  rewrite mul_ok /= -/K wrong_size_ok subv_ok /= mulv_ok /= addv_ok /= mul_ok /= mul_ok /= sub_ok. by [].
Qed.

(** ** Sizes *)
Lemma size_mx A r c : has_size A r c -> exists B : 'M[R]_(r, c), A = DM B.
Proof. by case: A => r' c' B [/= <- <-]; exists B. Qed.
Lemma size_cv v n : dv_n v = n -> exists w : 'cV[R]_n, v = DV w.
Proof. by case: v => n' w /= <-; exists w. Qed.
Lemma len_ok v n : (dv_n v != n) = false -> dv_n v = n.
Proof. by move/negbFE/eqP. Qed.

Ltac guard_case := match goal with |- context [if ?b then Ret (false, _) else _] =>
  let E := fresh "E" in destruct b eqn:E; [reflexivity|] end.
Ltac guard_end N := exfalso; apply: N; repeat split;
  match goal with
  | H : wrong_size ?A _ _ = false |- dm_r ?A = _ => by case/wrong_sizeP: H
  | H : wrong_size ?A _ _ = false |- dm_c ?A = _ => by case/wrong_sizeP: H
  | H : (dv_n ?v != _) = false |- dv_n ?v = _ => exact: len_ok H
  end.

Lemma predict_rejects xk Pk Phik Qk x1 P1 : ~ predict_sizes xk Pk Phik Qk x1 P1 ->
  filterPredict xk Pk Phik Qk x1 P1 = Ret (false, (x1, P1)).
Proof. move=> N. rewrite /filterPredict /filterPredict_at /=. do 5 guard_case. guard_end N. Qed.
Lemma predict_accepts xk Pk Phik Qk x1 P1 : predict_sizes xk Pk Phik Qk x1 P1 ->
  exists r, filterPredict xk Pk Phik Qk x1 P1 = Ret (true, r).
Proof.
  case: xk => n x. case=> /= HP [HPhi [HQ [Hx HP1]]].
  case: (size_mx HP) => P ->. case: (size_mx HPhi) => Phi ->.
  case: (size_mx HQ) => Q ->. case: (size_cv Hx) => y ->. case: (size_mx HP1) => P1' ->.
  rewrite predict_ok. by eexists.
Qed.

Lemma update_rejects xk Pk zk H Rk x1 P1 : ~ update_sizes xk Pk zk H Rk x1 P1 ->
  filterUpdate xk Pk zk H Rk x1 P1 = Ret (false, (x1, P1)).
Proof. move=> N. rewrite /filterUpdate /filterUpdate_at /=. do 5 guard_case. guard_end N. Qed.
Lemma update_accepts xk Pk zk H Rk x1 P1 : update_sizes xk Pk zk H Rk x1 P1 ->
  (exists r, filterUpdate xk Pk zk H Rk x1 P1 = Ret (true, r)) \/ filterUpdate xk Pk zk H Rk x1 P1 = NonFinite.
Proof.
  case: xk => n x. case: zk => m z. case=> /= HP [HH [HR [Hx HP1]]].
  case: (size_mx HP) => P ->. case: (size_mx HH) => H' ->.
  case: (size_mx HR) => Q ->. case: (size_cv Hx) => y ->. case: (size_mx HP1) => P1' ->.
  rewrite update_ok. case: ifP => _; [left; by eexists|by right].
Qed.

Lemma ukf_predict_rejects Wi yi Qk x1 P1 : ~ ukf_predict_sizes Wi yi Qk x1 P1 ->
  filterUkfPredict Wi yi Qk x1 P1 = Ret (false, (x1, P1)).
Proof. move=> N. rewrite /filterUkfPredict /filterUkfPredict_at /=. do 4 guard_case. guard_end N. Qed.
Lemma ukf_predict_accepts Wi yi Qk x1 P1 : ukf_predict_sizes Wi yi Qk x1 P1 ->
  exists r, filterUkfPredict Wi yi Qk x1 P1 = Ret (true, r).
Proof.
  case: x1 => n x. case=> HP [HW [Hy HQ]].
  case: (size_mx HP) => P ->. case: (size_cv HW) => W ->.
  case: (size_mx Hy) => y ->. case: (size_mx HQ) => Q ->.
  rewrite (@ukfPredict_ok n W y Q P x). by eexists.
Qed.

Lemma ukf_update_rejects xk Pk yi Wi zi zk Rk x1 P1 : ~ ukf_update_sizes xk Pk yi Wi zi zk Rk x1 P1 ->
  filterUkfUpdate xk Pk yi Wi zi zk Rk x1 P1 = Ret (false, (x1, P1)).
Proof. move=> N. rewrite /filterUkfUpdate /filterUkfUpdate_at /=. do 7 guard_case. guard_end N. Qed.
Lemma ukf_update_accepts xk Pk yi Wi zi zk Rk x1 P1 : ukf_update_sizes xk Pk yi Wi zi zk Rk x1 P1 ->
  (exists r, filterUkfUpdate xk Pk yi Wi zi zk Rk x1 P1 = Ret (true, r)) \/
  filterUkfUpdate xk Pk yi Wi zi zk Rk x1 P1 = NonFinite.
Proof.
  case: xk => n x. case: zk => m z. case=> HP [Hy [HW [Hz [HR [Hx HP1]]]]].
  case: (size_mx HP) => P ->. case: (size_mx Hy) => y ->. case: (size_cv HW) => W ->.
  case: (size_mx Hz) => zi' ->. case: (size_mx HR) => Rk' ->. case: (size_cv Hx) => x1' ->. case: (size_mx HP1) => P1' ->.
  have := @ukfUpdate_ok n m x x1' P P1' y W zi' z Rk'. cbv zeta. move=> ->. case: ifP => _; [left; by eexists|by right].
Qed.
