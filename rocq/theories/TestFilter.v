(** The numeric unit tests of /repo/test/KalmanFilterTest.cpp,
    BatchLeastSquaresTest.cpp and the fine alignment part of
    InitializationTest.cpp, proved of the models.  Matrices are enclosed
    entry by entry. *)
From Coq Require Import Reals ZArith QArith Lra.
From mathcomp Require Import all_ssreflect all_algebra.
From Verif Require Import Base BaseMx CheckNum TestBase ModelEigen ModelKalman ModelBls ModelFine SpecKalman SpecBls ProofMx ProofKalman ProofBls ProofBls2.
Set Implicit Arguments.
Unset Strict Implicit.
Unset Printing Implicit Defensive.
Import GRing.Theory.
Local Open Scope ring_scope.
Delimit Scope Q_scope with q.
Delimit Scope R_scope with re.

Definition grid := seq (seq itv).
Definition at_ (l : grid) (i j : nat) : itv := nth (iz 0) (nth [::] l i) j.
Definition tab (r c : nat) (f : nat -> nat -> itv) : grid := mkseq (fun i => mkseq (f i) c) r.
Definition inm r c (A : 'M[R]_(r, c)) (l : grid) : Prop := forall i j, rng (A i j) (at_ l i j).
Lemma at_tab r c f i j : (i < r)%N -> (j < c)%N -> at_ (tab r c f) i j = f i j.
Proof. by move=> Hi Hj; rewrite /at_ /tab nth_mkseq // nth_mkseq. Qed.
Lemma in_tab r c (A : 'M[R]_(r, c)) (f : nat -> nat -> itv) : (forall (i : 'I_r) (j : 'I_c), rng (A i j) (f i j)) -> inm A (tab r c f).
Proof. by move=> H i j; rewrite at_tab. Qed.
Lemma in_norm r c (A : 'M[R]_(r, c)) l m : inm A l -> l = m -> inm A m.
Proof. by move=> H <-. Qed.

Definition gadd r c l m := tab r c (fun i j => iadd (at_ l i j) (at_ m i j)).
Definition gsub r c l m := tab r c (fun i j => isub (at_ l i j) (at_ m i j)).
Definition gtr r c l := tab r c (fun i j => at_ l j i).
Definition gscale r c k l := tab r c (fun i j => imul k (at_ l i j)).
Definition gmul r k c l m := tab r c (fun i j => foldr (fun t s => iadd (imul (at_ l i t) (at_ m t j)) s) (iz 0) (iota 0 k)).
Definition gcol r k l := tab r 1 (fun i _ => at_ l i k).
Definition gzero r c := tab r c (fun _ _ => iz 0).
Definition gone r := tab r r (fun i j => if i == j then iz 1 else iz 0).

Lemma in_add r c (A B : 'M[R]_(r, c)) l m : inm A l -> inm B m -> inm (A + B) (gadd r c l m).
Proof. move=> HA HB. apply: in_tab => i j. rewrite mxE. exact: rng_add. Qed.
Lemma in_sub r c (A B : 'M[R]_(r, c)) l m : inm A l -> inm B m -> inm (A - B) (gsub r c l m).
Proof. move=> HA HB. apply: in_tab => i j. rewrite !mxE. exact: rng_sub. Qed.
Lemma in_tr r c (A : 'M[R]_(r, c)) l : inm A l -> inm A^T (gtr c r l).
Proof. move=> HA. apply: in_tab => i j. by rewrite mxE. Qed.
Lemma in_scale r c (A : 'M[R]_(r, c)) l x k : rng x k -> inm A l -> inm (x *: A) (gscale r c k l).
Proof. move=> Hx HA. apply: in_tab => i j. rewrite mxE. exact: rng_mul. Qed.
Lemma in_mul r k c (A : 'M[R]_(r, k)) (B : 'M[R]_(k, c)) l m : inm A l -> inm B m -> inm (A *m B) (gmul r k c l m).
Proof.
  move=> HA HB. apply: in_tab => i j. rewrite mxE.
  pose F (t : nat) : R := if insub t is Some u then A i u * B u j else 0.
  have -> : \sum_u A i u * B u j = \sum_(t <- iota 0 k) F t.
  { have -> : iota 0 k = index_iota 0 k by rewrite /index_iota subn0. rewrite big_mkord. apply: eq_bigr => u _. by rewrite /F valK. }
  have : all (fun t => t < k)%N (iota 0 k) by apply/allP => t; rewrite mem_iota.
  elim: (iota 0 k) => [|t s IH] /=; first by move=> _; rewrite big_nil; exact: (rng_z 0).
  move/andP => [Ht Hs]. rewrite big_cons. apply: rng_add; last by apply: IH.
  rewrite /F. case: insubP => [u _ <-|]; last by rewrite Ht. apply: rng_mul; [exact: HA|exact: HB].
Qed.
Lemma in_col r c (A : 'M[R]_(r, c)) l (k : 'I_c) : inm A l -> inm (col k A) (gcol r k l).
Proof. move=> HA. apply: in_tab => i j. by rewrite mxE. Qed.
Lemma in_zero r c : inm (0 : 'M[R]_(r, c)) (gzero r c).
Proof. apply: in_tab => i j. rewrite mxE. exact: (rng_z 0). Qed.
Lemma in_one r : inm (1%:M : 'M[R]_r) (gone r).
Proof. apply: in_tab => i j. rewrite mxE. case: eqP => [->|N] /=; first by rewrite eqxx; exact: (rng_z 1).
  case: eqP => [E|_]; last exact: (rng_z 0). by case: N; apply: val_inj. Qed.

Definition gdiag r l := tab r r (fun i j => if i == j then at_ l 0 i else iz 0).
Lemma in_diag r (d : 'rV[R]_r) l : inm d l -> inm (diag_mx d) (gdiag r l).
Proof.
  move=> H. apply: in_tab => i j. rewrite mxE. case: eqP => [->|N] /=; first by rewrite eqxx; exact: (H 0 j).
  case: eqP => [E|_]; last exact: (rng_z 0). by case: N; apply: val_inj.
Qed.
(** Decimal inputs, row by row. *)
Definition mq (r c : nat) (l : seq (seq Q)) : 'M[R]_(r, c) := \matrix_(i, j) Q2R (nth 0%q (nth [::] l i) j).
Definition iq (q : Q) : itv := idiv (iz (Qnum q)) (iz (Zpos (Qden q))).
Lemma rng_iq q : rng (Q2R q) (iq q).
Proof.
  rewrite /Q2R -/(Rdiv _ _). apply: rng_div; try exact: rng_z. apply/orP; left.
  apply/Z.ltb_lt. apply: Z.mul_pos_pos => //.
Qed.
Definition gq r c l := tab r c (fun i j => iq (nth 0%q (nth [::] l i) j)).
Lemma in_q r c l : inm (mq r c l) (gq r c l).
Proof. apply: in_tab => i j. rewrite mxE. exact: rng_iq. Qed.

(** Eigen's isApprox. *)
Definition coeffs (A : dmat) : seq R := flatten [seq [seq dm_m A i j | j <- enum 'I_(dm_c A)] | i <- enum 'I_(dm_r A)].
Definition coeffsv (v : dvec) : seq R := [seq dv_v v i 0 | i <- enum 'I_(dv_n v)].
Fixpoint rngs (l : seq R) (m : seq itv) : Prop :=
  match l, m with [::], [::] => True | x :: l, i :: m => rng x i /\ rngs l m | _, _ => False end.
Fixpoint isumsq (m : seq itv) : itv := if m is i :: m then iadd (imul i i) (isumsq m) else iz 0.
Fixpoint idiff (a b : seq itv) : seq itv := match a, b with i :: a, j :: b => isub i j :: idiff a b | _, _ => [::] end.
Lemma rng_sumsq l : forall m, rngs l m -> rng (sumsq l) (isumsq m).
Proof.
  elim: l => [|x l IH] [|i m] //=; first by move=> _; exact: (rng_z 0).
  move=> [Hx Hl]. apply: rng_add; [exact: rng_mul|exact: IH].
Qed.
Lemma rng_diff a : forall b i j, rngs a i -> rngs b j -> rngs (diff a b) (idiff i j).
Proof.
  elim: a => [|x a IH] [|y b] [|i l] [|j m] //=. move=> [Hx Ha] [Hy Hb]. split; [exact: rng_sub|exact: IH].
Qed.
Lemma rngs_length l : forall m, rngs l m -> length l = length m.
Proof. elim: l => [|x l IH] [|i m] //= [_ H]. by rewrite (IH m). Qed.
Definition approx_ok (i j : seq itv) (e : itv) : bool :=
  let d := isumsq (idiff i j) in let f := imul e e in
  (length i =? length j)%coq_nat &&
  (Z.leb (snd d) (fst (imul f (isumsq i))) && Z.leb (snd d) (fst (imul f (isumsq j)))).
Lemma approx_by a b i j e (q : R) : rngs a i -> rngs b j -> rng q e -> approx_ok i j e = true -> isApprox a b q.
Proof.
  move=> Ha Hb He /andP[/Nat.eqb_eq L /andP[H1 H2]]. split; first by rewrite (rngs_length Ha) (rngs_length Hb).
  have D := rng_sumsq (rng_diff Ha Hb). have F := rng_mul _ _ _ _ He He.
  have Sa := rng_mul _ _ _ _ F (rng_sumsq Ha). have Sb := rng_mul _ _ _ _ F (rng_sumsq Hb).
  rewrite /Rmin; case: Rle_dec => _; [exact: (rng_le _ _ _ _ D Sa)|exact: (rng_le _ _ _ _ D Sb)].
Qed.
Definition rowsof (l : grid) : seq itv := flatten l.
Lemma rngs_cat a : forall i b j, rngs a i -> rngs b j -> rngs (a ++ b) (i ++ j).
Proof. elim: a => [|x a IH] [|i l] //= b j [Hx Ha] Hb. split=> //. exact: IH. Qed.
Lemma rngs_map (T : Type) (f : T -> R) (g : T -> itv) (s : seq T) : (forall t, rng (f t) (g t)) -> rngs (map f s) (map g s).
Proof. move=> H. elim: s => //= t s IH. Qed.
Lemma rngs_flat (T : Type) (f : T -> seq R) (g : T -> seq itv) (s : seq T) :
  (forall t, rngs (f t) (g t)) -> rngs (flatten (map f s)) (flatten (map g s)).
Proof. move=> H. elim: s => //= t s IH. exact: rngs_cat. Qed.
Definition flat r c (l : grid) : seq itv := flatten (mkseq (fun i => mkseq (at_ l i) c) r).
Lemma enum_nat n (T : Type) (f : nat -> T) : [seq f (val i) | i <- enum 'I_n] = mkseq f n.
Proof. rewrite /mkseq -val_enum_ord. elim: (enum _) => //= i s ->. by []. Qed.
Lemma rngs_coeffs r c (A : 'M[R]_(r, c)) l : inm A l -> rngs (coeffs (DM A)) (flat r c l).
Proof.
  move=> H. rewrite /coeffs /flat -enum_nat /=. apply: rngs_flat => i. rewrite -enum_nat. apply: rngs_map => j. exact: H.
Qed.
Lemma rngs_coeffsv n (v : 'cV[R]_n) l : inm v l -> rngs (coeffsv (DV v)) (flat n 1 l).
Proof.
  move=> H. rewrite /coeffsv /flat -enum_nat /=.
  rewrite (_ : flatten _ = [seq at_ l (val i) 0 | i <- enum 'I_n]); last by elim: (enum _) => //= i s <-.
  apply: rngs_map => i. exact: H.
Qed.
Lemma rngs_q (l : seq Q) : rngs (map Q2R l) (map iq l).
Proof. apply: rngs_map => q. exact: rng_iq. Qed.

(** ** Rules *)
Lemma r_mul r k c (A : 'M[R]_(r, k)) (B : 'M[R]_(k, c)) l m n (P : dmat -> Prop) : inm A l -> inm B m -> gmul r k c l m = n ->
  (forall C : 'M[R]_(r, c), inm C n -> P (DM C)) -> holds (mul (DM A) (DM B)) P.
Proof. move=> HA HB <- H. rewrite mul_ok. apply: H. exact: in_mul. Qed.
Lemma r_add r c (A B : 'M[R]_(r, c)) l m n (P : dmat -> Prop) : inm A l -> inm B m -> gadd r c l m = n ->
  (forall C : 'M[R]_(r, c), inm C n -> P (DM C)) -> holds (add (DM A) (DM B)) P.
Proof. move=> HA HB <- H. rewrite add_ok. apply: H. exact: in_add. Qed.
Lemma r_sub r c (A B : 'M[R]_(r, c)) l m n (P : dmat -> Prop) : inm A l -> inm B m -> gsub r c l m = n ->
  (forall C : 'M[R]_(r, c), inm C n -> P (DM C)) -> holds (sub (DM A) (DM B)) P.
Proof. move=> HA HB <- H. rewrite sub_ok. apply: H. exact: in_sub. Qed.
Lemma r_mulv r k (A : 'M[R]_(r, k)) (B : 'cV[R]_k) l m n (P : dvec -> Prop) : inm A l -> inm B m -> gmul r k 1 l m = n ->
  (forall C : 'cV[R]_r, inm C n -> P (DV C)) -> holds (mulv (DM A) (DV B)) P.
Proof. move=> HA HB <- H. rewrite mulv_ok. apply: H. exact: in_mul. Qed.
Lemma r_addv r (A B : 'cV[R]_r) l m n (P : dvec -> Prop) : inm A l -> inm B m -> gadd r 1 l m = n ->
  (forall C : 'cV[R]_r, inm C n -> P (DV C)) -> holds (addv (DV A) (DV B)) P.
Proof. move=> HA HB <- H. rewrite addv_ok. apply: H. exact: in_add. Qed.
Lemma r_subv r (A B : 'cV[R]_r) l m n (P : dvec -> Prop) : inm A l -> inm B m -> gsub r 1 l m = n ->
  (forall C : 'cV[R]_r, inm C n -> P (DV C)) -> holds (subv (DV A) (DV B)) P.
Proof. move=> HA HB <- H. rewrite subv_ok. apply: H. exact: in_sub. Qed.
Lemma r_dotv r (A B : 'cV[R]_r) l m z (P : R -> Prop) : inm A l -> inm B m -> at_ (gmul 1 r 1 (gtr 1 r l) m) 0 0 = z ->
  (forall x, rng x z -> P x) -> holds (dotv (DV A) (DV B)) P.
Proof. move=> HA HB <- H. rewrite dotv_ok. apply: H. exact: (in_mul (in_tr HA) HB). Qed.
Lemma r_coef n (v : 'cV[R]_n) l k z (P : R -> Prop) : inm v l -> (k < n)%N -> at_ l k 0 = z ->
  (forall x, rng x z -> P x) -> holds (coef (DV v) k) P.
Proof. move=> Hv Hk <- H. rewrite (coef_ok v (Ordinal Hk)). apply: H. exact: Hv. Qed.
Lemma r_colv r c (A : 'M[R]_(r, c)) l k n (P : dvec -> Prop) : inm A l -> (k < c)%N -> gcol r k l = n ->
  (forall C : 'cV[R]_r, inm C n -> P (DV C)) -> holds (colv (DM A) k) P.
Proof. move=> HA Hk <- H. rewrite (colv_ok A (Ordinal Hk)). apply: H. exact: in_col. Qed.

(** The inverse of small matrices. *)
Lemma inv_by n (A B : 'M[R]_n) : A *m B = 1%:M -> inverse (DM A) = Ret (DM B).
Proof.
  move=> E. rewrite inverse_ok. have [U _] := mulmx1_unit E. rewrite U.
  by rewrite -[invmx A]mulmx1 -E mulmxA mulVmx // mul1mx.
Qed.
Definition nz (i : itv) : bool := ipos i || ineg i.
Definition adj1 (d : itv) : grid := [:: [:: idiv (iz 1) d]].
Lemma r_inv1 (A : 'M[R]_1) l n (P : dmat -> Prop) : inm A l -> nz (at_ l 0 0) -> adj1 (at_ l 0 0) = n ->
  (forall C : 'M[R]_1, inm C n -> P (DM C)) -> holds (inverse (DM A)) P.
Proof.
  move=> HA HN <- H. have D := rng_nz _ _ (HA 0 0) HN.
  rewrite (@inv_by _ A (\matrix_(i, j) Rdiv 1 (A 0 0))).
  - apply: H => i j. rewrite !ord1 mxE. apply: rng_div; [exact: (rng_z 1)|exact: HA|exact: HN].
  - apply/matrixP => i j. rewrite !ord1 !mxE big_ord_recl big_ord0 !mxE addr0 /=. rewrite mulr1n. change (A 0 ord0) with (A 0 0). toR. by field.
Qed.
Definition det2 (l : grid) : itv := isub (imul (at_ l 0 0) (at_ l 1 1)) (imul (at_ l 0 1) (at_ l 1 0)).
Definition adj2 (l : grid) : grid := let d := det2 l in
  [:: [:: idiv (at_ l 1 1) d; idiv (iopp (at_ l 0 1)) d]; [:: idiv (iopp (at_ l 1 0)) d; idiv (at_ l 0 0) d]].
Lemma r_inv2 (A : 'M[R]_2) l n (P : dmat -> Prop) : inm A l -> nz (det2 l) -> adj2 l = n ->
  (forall C : 'M[R]_2, inm C n -> P (DM C)) -> holds (inverse (DM A)) P.
Proof.
  move=> HA HN <- H.
  have RD : rng (Rminus (Rmult (A 0 0) (A 1 1)) (Rmult (A 0 1) (A 1 0))) (det2 l).
  { apply: rng_sub; apply: rng_mul; exact: HA. }
  have D := rng_nz _ _ RD HN. move: D RD. set d := Rminus _ _ => D RD.
  rewrite (@inv_by _ A (mx_of 2 2 [:: [:: Rdiv (A 1 1) d; Rdiv (Ropp (A 0 1)) d]; [:: Rdiv (Ropp (A 1 0)) d; Rdiv (A 0 0) d]])).
  - apply: H => i j. rewrite mxE. 
    case: i => [[|[|//]] Hi]; case: j => [[|[|//]] Hj] /=; apply: rng_div => //; try apply: rng_opp; exact: HA.
  - apply/matrixP => i j. rewrite !mxE !big_ord_recl big_ord0 !mxE addr0 /=.
    have E0 : forall h, Ordinal (n:=2) (m:=0) h = 0 by move=> h; apply: val_inj.
    have E1 : forall h, Ordinal (n:=2) (m:=1) h = 1 by move=> h; apply: val_inj.
    have L : lift ord0 ord0 = 1 :> 'I_2 by apply: val_inj. rewrite L {L}.
    change (ord0 : 'I_2) with (0 : 'I_2).
    case: i => [[|[|//]] Hi]; case: j => [[|[|//]] Hj] /=; rewrite ?E0 ?E1 ?mulr1n ?mulr0n /=; toR; rewrite /d; move: D; rewrite /d;
      generalize (A 0 0) (A 0 1) (A 1 0) (A 1 1); intros; field; assumption.
Qed.

Ltac mtype a := let T := type of a in eval hnf in T.
Ltac mv e := lazymatch goal with
  | H : inm e _ |- _ => H
  | _ => lazymatch e with
    | trmx ?a => let p := mv a in keepm (in_tr p)
    | ?a *m ?b => let p := mv a in let q := mv b in keepm (in_mul p q)
    | ?x *: ?a => let p := mv a in lazymatch goal with H : rng x _ |- _ => keepm (in_scale H p) end
    | 0 => let Te := mtype e in lazymatch Te with matrix _ ?r ?c => keepm (@in_zero r c) end
    | 1%:M => let Te := mtype e in lazymatch Te with matrix _ ?r _ => keepm (@in_one r) end
    | mq ?r ?c ?l => keepm (@in_q r c l)
    | diag_mx ?a => let p := mv a in keepm (in_diag p)
    | _ => fail "no matrix rule for" e
    end end
with keepm p := let q := constr:(p) in lazymatch type of q with @inm ?r ?c ?A ?l =>
  let m := eval vm_compute in l in let H := fresh "g" in
  let _ := match goal with _ => pose proof (@in_norm r c A l m q (Logic.eq_refl m <: l = m)) as H end in constr:(H) end.

Ltac red_ := lazy beta iota zeta delta [fst snd negb orb vecs mats setv setm fresh nth wrong_size dm_r dm_c dm_m dv_n dv_v tr scalev outer
  ident zeros zerov eq_op Equality.op Equality.class Equality.sort nat_eqType nat_eqMixin eqn ssrnat.leq addn muln addn_rec muln_rec Nat.add Nat.mul subn
  subn_rec Nat.sub loop loop_from add_scatter].
(** One operation of a model. *)
Ltac go2 lem g p q := lazymatch type of p with inm _ ?l => lazymatch type of q with inm _ ?m =>
  let n := eval vm_compute in (g l m) in refine (lem l m n _ p q (Logic.eq_refl n <: g l m = n) _); intros ? ? end end.
Ltac mstep := lazymatch goal with
  | |- holds (bind _ _) _ => apply holds_bind
  | |- holds (mul (DM ?a) (DM ?b)) _ => let p := mv a in let q := mv b in
      let Ta := mtype a in lazymatch Ta with matrix _ ?r ?k => let Tb := mtype b in lazymatch Tb with matrix _ _ ?c => go2 (@r_mul r k c a b) (gmul r k c) p q end end
  | |- holds (add (DM ?a) (DM ?b)) _ => let p := mv a in let q := mv b in
      let Ta := mtype a in lazymatch Ta with matrix _ ?r ?c => go2 (@r_add r c a b) (gadd r c) p q end
  | |- holds (sub (DM ?a) (DM ?b)) _ => let p := mv a in let q := mv b in
      let Ta := mtype a in lazymatch Ta with matrix _ ?r ?c => go2 (@r_sub r c a b) (gsub r c) p q end
  | |- holds (mulv (DM ?a) (DV ?b)) _ => let p := mv a in let q := mv b in
      let Ta := mtype a in lazymatch Ta with matrix _ ?r ?k => go2 (@r_mulv r k a b) (gmul r k 1) p q end
  | |- holds (addv (DV ?a) (DV ?b)) _ => let p := mv a in let q := mv b in
      let Ta := mtype a in lazymatch Ta with matrix _ ?r _ => go2 (@r_addv r a b) (gadd r 1) p q end
  | |- holds (subv (DV ?a) (DV ?b)) _ => let p := mv a in let q := mv b in
      let Ta := mtype a in lazymatch Ta with matrix _ ?r _ => go2 (@r_subv r a b) (gsub r 1) p q end
  | |- holds (coef (DV ?a) ?k) _ => let p := mv a in lazymatch type of p with inm _ ?l => let n := eval vm_compute in (at_ l k 0) in
      refine (@r_coef _ a l k n _ p isT (Logic.eq_refl n <: at_ l k 0 = n) _); intros ? ? end
  | |- holds (colv (DM ?a) ?k) _ => let p := mv a in let Ta := mtype a in lazymatch Ta with matrix _ ?r ?c =>
      lazymatch type of p with inm _ ?l => let n := eval vm_compute in (gcol r k l) in
      refine (@r_colv r c a l k n _ p isT (Logic.eq_refl n <: gcol r k l = n) _); intros ? ? end end
  | |- holds (inverse (DM ?a)) _ => let p := mv a in lazymatch type of p with inm _ ?l =>
      let Ta := mtype a in lazymatch Ta with
      | matrix _ 1 _ => let n := eval vm_compute in (adj1 (at_ l 0 0)) in
          refine (@r_inv1 a l n _ p (Logic.eq_refl true <: nz (at_ l 0 0) = true) (Logic.eq_refl n <: adj1 (at_ l 0 0) = n) _); intros ? ?
      | matrix _ 2 _ => let n := eval vm_compute in (adj2 l) in
          refine (@r_inv2 a l n _ p (Logic.eq_refl true <: nz (det2 l) = true) (Logic.eq_refl n <: adj2 l = n) _); intros ? ?
      end end
  | |- holds (dotv (DV ?a) (DV ?b)) _ => let p := mv a in let q := mv b in let Ta := mtype a in lazymatch Ta with matrix _ ?r _ =>
      lazymatch type of p with inm _ ?l => lazymatch type of q with inm _ ?m =>
      let n := eval vm_compute in (at_ (gmul 1 r 1 (gtr 1 r l) m) 0 0) in
      refine (@r_dotv r a b l m n _ p q (Logic.eq_refl n <: at_ (gmul 1 r 1 (gtr 1 r l) m) 0 0 = n) _); intros ? ? end end end
  | |- holds (Ret _) _ => apply holds_ret
  end; red_.
Ltac near := lazymatch goal with
  | |- isApprox (coeffs (@DM ?r ?c ?A)) (map Q2R ?l) (Q2R ?e) => let p := mv A in lazymatch type of p with inm _ ?g =>
    exact (approx_by (rngs_coeffs p) (rngs_q l) (rng_iq e) (Logic.eq_refl true <: approx_ok (flat r c g) (map iq l) (iq e) = true)) end
  | |- isApprox (coeffsv (@DV ?r ?A)) (map Q2R ?l) (Q2R ?e) => let p := mv A in lazymatch type of p with inm _ ?g =>
    exact (approx_by (rngs_coeffsv p) (rngs_q l) (rng_iq e) (Logic.eq_refl true <: approx_ok (flat r 1 g) (map iq l) (iq e) = true)) end
  end.

Definition x4 := mq 4 1 [:: [:: 3.452]; [:: 8.375]; [:: 5.285]; [:: 9.453]]%q.
Definition P4 := mq 4 4 [:: [:: 4.675; 0; 0; 0]; [:: 0; 6.295; 0; 0]; [:: 0; 0; 8.294; 0]; [:: 0; 0; 0; 4.385]]%q.
Definition Phi4 := mq 4 4 [:: [:: 3.674; 0.375; 0.000; 0.000]; [:: 0.000; 4.284; 0.000; 8.294];
  [:: 1.329; 4.295; 6.295; 0.000]; [:: 0.000; 0.000; 3.294; 7.184]]%q.
Definition Q4 := mq 4 4 [:: [:: 3.284; 0; 0; 0]; [:: 0; 8.284; 0; 0]; [:: 0; 0; 8.394; 0]; [:: 0; 0; 0; 3.219]]%q.

(** KalmanFilterTest.cpp 140-183.  The outputs are not initialised there: any
    objects of the right sizes. *)
Example predict_ok (x1 : 'cV[R]_4) (P1 : 'M[R]_4) :
  passes (filterPredict (DV x4) (DM P4) (DM Phi4) (DM Q4) (DV x1) (DM P1)) (fun o =>
    isApprox (coeffsv o.1) (map Q2R [:: 15.823273; 114.281682; 73.827408; 85.319142]%q) (Q2R 1e-6) /\
    isApprox (coeffs o.2) (map Q2R [:: 67.2737;   10.1129;   32.9657;    0.0000;
             10.1129;  425.4600;  115.8266;  261.2763;
             32.9657;  115.8266;  461.4417;  171.9821;
              0.0000;  261.2763;  171.9821;  319.5217]%q) (Q2R 1e-6)).
Proof.
  rewrite /passes /filterPredict /filterPredict_at /outputs /x4 /P4 /Phi4 /Q4. red_.
  repeat mstep. split=> //. split; near.
Qed.

(** KalmanFilterTest.cpp 317-358 *)
Definition z2 := mq 2 1 [:: [:: 101.744]; [:: 104.384]]%q.
Definition H24 := mq 2 4 [:: [:: 3.573; 8.278; 2.485; 0.583]; [:: 1.573; 3.584; 7.284; 3.294]]%q.
Definition R2 := mq 2 2 [:: [:: 4.029; 0]; [:: 0; 6.294]]%q.
Example update_ok (x1 : 'cV[R]_4) (P1 : 'M[R]_4) :
  passes (filterUpdate (DV x4) (DM P4) (DV z2) (DM H24) (DM R2) (DV x1) (DM P1)) (fun o =>
    isApprox (coeffsv o.1) (map Q2R [:: 3.515714; 8.575666; 5.106958; 9.396168]%q) (Q2R 1e-6) /\
    isApprox (coeffs o.2) (map Q2R [::  4.1183;  -1.7411;  -0.0761;   0.0733;
             -1.7411;   0.8487;  -0.1845;   0.2430;
             -0.0761;  -0.1845;   1.0691;  -1.8616;
              0.0733;   0.2430;  -1.8616;   3.8898]%q) (Q2R 1e-3)).
Proof.
  rewrite /passes /filterUpdate /filterUpdate_at /outputs /x4 /P4 /z2 /H24 /R2. red_.
  repeat mstep. split=> //. split; near.
Qed.

(** KalmanFilterTest.cpp 457-496 *)
Definition W9 := mq 9 1 [:: [:: 0.05]; [:: 0.10]; [:: 0.10]; [:: 0.20]; [:: 0.15]; [:: 0.20]; [:: 0.10]; [:: 0.10]; [:: 0.00]]%q.
Definition y49 := mq 4 9 [::
  [:: 0.21; 0.84; 0.19; 0.20; 0.92; 0.82; 0.02; 0.12; 0.36];
  [:: 0.67; 0.15; 0.13; 0.13; 0.11; 0.92; 0.28; 0.10; 0.23];
  [:: 0.25; 0.28; 0.93; 0.84; 0.15; 0.12; 0.15; 0.82; 0.73];
  [:: 0.31; 0.49; 0.19; 0.47; 0.63; 0.46; 0.89; 0.91; 0.16]]%q.
Example ukf_predict_ok (x1 : 'cV[R]_4) (P1 : 'M[R]_4) :
  passes (filterUkfPredict (DV W9) (DM y49) (DM Q4) (DV x1) (DM P1)) (fun o =>
    isApprox (coeffsv o.1) (map Q2R [:: 0.469500; 0.326000; 0.445000; 0.544000]%q) (Q2R 1e-6) /\
    isApprox (coeffs o.2) (map Q2R [:: 3.4109;    0.0421;   -0.0810;   -0.0135;
             0.0421;    8.3874;   -0.0616;   -0.0159;
            -0.0810;   -0.0616;    8.5103;   -0.0147;
            -0.0135;   -0.0159;   -0.0147;    3.2635]%q) (Q2R 1e-5)).
Proof.
  rewrite /passes /filterUkfPredict /filterUkfPredict_at /outputs /W9 /y49 /Q4. red_.
  repeat mstep. split=> //. split; near.
Qed.

(** KalmanFilterTest.cpp 691-738 *)
Definition z29 := mq 2 9 [::
  [:: 101.738; 101.848; 101.482; 101.942; 101.039; 101.323; 101.583; 101.473; 101.484];
  [:: 104.738; 104.848; 104.482; 104.942; 104.039; 104.323; 104.583; 104.473; 104.484]]%q.
Example ukf_update_ok (x1 : 'cV[R]_4) (P1 : 'M[R]_4) :
  passes (filterUkfUpdate (DV x4) (DM P4) (DM y49) (DV W9) (DM z29) (DV z2) (DM R2) (DV x1) (DM P1)) (fun o =>
    isApprox (coeffsv o.1) (map Q2R [:: 3.450376; 8.374325; 5.286477; 9.452684]%q) (Q2R 1e-6) /\
    isApprox (coeffs o.2) (map Q2R [:: 4.6736;   -0.0006;    0.0013;   -0.0003;
            -0.0006;    6.2948;    0.0005;   -0.0001;
             0.0013;    0.0005;    8.2928;    0.0002;
            -0.0003;   -0.0001;    0.0002;    4.3849]%q) (Q2R 1e-4)).
Proof.
  rewrite /passes /filterUkfUpdate /filterUkfUpdate_at /outputs /x4 /P4 /W9 /y49 /z29 /z2 /R2. red_.
  repeat mstep. split=> //. split; near.
Qed.

(** InitializationTest.cpp 125-170 *)
Definition x8 := mq 8 1 [:: [:: 3.452]; [:: 8.375]; [:: 5.285]; [:: 9.453]; [:: 3.582]; [:: 0.374]; [:: 6.283]; [:: 0.378]]%q.
Definition P8 := mq 8 8 [::
  [:: 4.675; 0; 0; 0; 0; 0; 0; 0];
  [:: 0; 6.295; 0; 0; 0; 0; 0; 0];
  [:: 0; 0; 8.294; 0; 0; 0; 0; 0];
  [:: 0; 0; 0; 4.385; 0; 0; 0; 0];
  [:: 0; 0; 0; 0; 7.284; 0; 0; 0];
  [:: 0; 0; 0; 0; 0; 9.733; 0; 0];
  [:: 0; 0; 0; 0; 0; 0; 0.372; 0];
  [:: 0; 0; 0; 0; 0; 0; 0; 4.283]]%q.
(** Entries of a comma initialiser. *)
Fixpoint rngss (l : seq (seq R)) (m : grid) : Prop :=
  match l, m with [::], [::] => True | x :: l, i :: m => rngs x i /\ rngss l m | _, _ => False end.
Lemma rngs_nth l : forall m k, rngs l m -> rng (nth R0 l k) (nth (iz 0) m k).
Proof.
  elim: l => [|x l IH] [|i m] //= k; first by move=> _; rewrite !nth_nil; exact: (rng_z 0).
  move=> [Hx Hl]. case: k => //= k. exact: IH.
Qed.
Lemma rngss_nth l : forall m k, rngss l m -> rngs (nth [::] l k) (nth [::] m k).
Proof. elim: l => [|x l IH] [|i m] //= k; first by move=> _; rewrite !nth_nil. move=> [Hx Hl]. case: k => //= k. exact: IH. Qed.
Lemma in_of r c l m : rngss l m -> inm (mx_of r c l) m.
Proof. move=> H i j. rewrite mxE. apply: rngs_nth. exact: rngss_nth. Qed.
Lemma rngs_0 : rngs [::] [::]. Proof. by []. Qed.
Lemma rngs_S x l i m : rng x i -> rngs l m -> rngs (x :: l) (i :: m). Proof. by []. Qed.
Lemma rngss_0 : rngss [::] [::]. Proof. by []. Qed.
Lemma rngss_S x l i m : rngs x i -> rngss l m -> rngss (x :: l) (i :: m). Proof. by []. Qed.
Ltac inits := match goal with |- context [mx_of ?r ?c ?l] =>
  let G := fresh "G" in eassert (G : inm (mx_of r c l) _); [apply: in_of; change R0 with (IZR 0); change R1 with (IZR 1);
    repeat first [exact: rngss_0|exact: rngs_0|apply: rngss_S|apply: rngs_S];
    lazymatch goal with |- rng ?e _ => let p := ev e in exact p end|
    let C := fresh "C" in set (C := mx_of r c l) in *; clearbody C] end.
Example fine_predict_ok (x1 : 'cV[R]_8) (P1 : 'M[R]_8) :
  passes (fineAlignmentPredict (Q2R 0.7361) (Rmult (Q2R 7.292115) 1e-5%re) (Q2R (-9.798)) (IZR 6378256) (DV x8) (DM P8) (DV x1) (DM P1)) (fun o =>
    isApprox (coeffsv o.1) (map Q2R [:: -9.4534099; -3.5815463; -0.3744525; 0; 0; 0; -82.0582870; 33.8233112]%q) (Q2R 1e-6) /\
    isApprox (coeffs o.2) (map Q2R [:: 4.385000;         0;1.6656e-08;     0;     0;     0;  0.003019;         0;
                      0;  7.284000;         0;     0;     0;     0;         0;  0.002242;
             1.6656e-08;         0;  9.733000;     0;     0;     0;  0.003333;         0;
                      0;         0;         0;     0;     0;     0;         0;         0;
                      0;         0;         0;     0;     0;     0;         0;         0;
                      0;         0;         0;     0;     0;     0;         0;         0;
               0.003019;         0;  0.003333;     0;     0;     0;604.325061;         0;
                      0;  0.002242;         0;     0;     0;     0;         0;448.803758]%q) (Q2R 1e-6)).
Proof.
  rewrite /passes /fineAlignmentPredict /filterPredict /filterPredict_at /outputs /x8 /P8 /alignmentPhik. red_.
  do 9 step. mstep. inits.
  repeat mstep. split=> //. split; near.
Qed.

(** InitializationTest.cpp 251-296 *)
Example fine_azimuth_ok (x1 : 'cV[R]_8) (P1 : 'M[R]_8) :
  passes (fineAlignmentAzimuthUpdate (Q2R 0.368) (Q2R 0.1) (Q2R 0.365) (Q2R 0.001) (DV x8) (DM P8) (DV x1) (DM P1)) (fun o =>
    isApprox (coeffsv o.1) (map Q2R [:: 3.452; 8.375; 0.003; 9.453; 3.582; 0.374; 6.283; 0.378]%q) (Q2R 1e-6) /\
    isApprox (coeffs o.2) (map Q2R [:: 4.675; 0; 0; 0; 0; 0; 0; 0;
      0; 6.295; 0; 0; 0; 0; 0; 0;
      0; 0; 0.000; 0; 0; 0; 0; 0;
      0; 0; 0; 4.385; 0; 0; 0; 0;
      0; 0; 0; 0; 7.284; 0; 0; 0;
      0; 0; 0; 0; 0; 9.733; 0; 0;
      0; 0; 0; 0; 0; 0; 0.372; 0;
      0; 0; 0; 0; 0; 0; 0; 4.283]%q) (Q2R 1e-6)).
Proof.
  rewrite /passes /fineAlignmentAzimuthUpdate /filterUpdate /filterUpdate_at /outputs /x8 /P8. red_.
  do 3 inits. repeat mstep. split=> //. split; near.
Qed.

(** InitializationTest.cpp 377-421 *)
Example fine_velocity_ok (x1 : 'cV[R]_8) (P1 : 'M[R]_8) :
  passes (fineAlignmentVelocityUpdate (Q2R 0.0) (Q2R 0.0) (Q2R 0.1) (Q2R 0.01) (DV x8) (DM P8) (DV x1) (DM P1)) (fun o =>
    isApprox (coeffsv o.1) (map Q2R [:: 3.452; 8.375; 5.285; 9.453; 3.582; 0.374; 0.0001688; 0.0000000]%q) (Q2R 1e-6) /\
    isApprox (coeffs o.2) (map Q2R [:: 4.675; 0; 0; 0; 0; 0; 0; 0;
      0; 6.295; 0; 0; 0; 0; 0; 0;
      0; 0; 8.294; 0; 0; 0; 0; 0;
      0; 0; 0; 4.385; 0; 0; 0; 0;
      0; 0; 0; 0; 7.284; 0; 0; 0;
      0; 0; 0; 0; 0; 9.733; 0; 0;
      0; 0; 0; 0; 0; 0; 9.99e-06; 0;
      0; 0; 0; 0; 0; 0; 0; 9.99e-06]%q) (Q2R 1e-6)).
Proof.
  rewrite /passes /fineAlignmentVelocityUpdate /filterUpdate /filterUpdate_at /outputs /x8 /P8. red_.
  do 3 inits. repeat mstep. split=> //. split; near.
Qed.

(** ** Least squares *)
Definition det3 (l : grid) : itv :=
  iadd (isub (imul (at_ l 0 0) (isub (imul (at_ l 1 1) (at_ l 2 2)) (imul (at_ l 1 2) (at_ l 2 1))))
             (imul (at_ l 0 1) (isub (imul (at_ l 1 0) (at_ l 2 2)) (imul (at_ l 1 2) (at_ l 2 0)))))
       (imul (at_ l 0 2) (isub (imul (at_ l 1 0) (at_ l 2 1)) (imul (at_ l 1 1) (at_ l 2 0)))).
(** Column k replaced by the vector m. *)
Definition put (l m : grid) (k : nat) : grid := tab 3 3 (fun i j => if j == k then at_ m i 0 else at_ l i j).
Definition cram (l m : grid) : grid := tab 3 1 (fun i _ => idiv (det3 (put l m i)) (det3 l)).
Definition rdet (a b c d e f g h i : R) : R :=
  Rplus (Rminus (Rmult a (Rminus (Rmult e i) (Rmult f h))) (Rmult b (Rminus (Rmult d i) (Rmult f g)))) (Rmult c (Rminus (Rmult d h) (Rmult e g))).
Definition i0 : 'I_3 := Ordinal (isT : (0 < 3)%N).
Definition i1 : 'I_3 := Ordinal (isT : (1 < 3)%N).
Definition i2 : 'I_3 := Ordinal (isT : (2 < 3)%N).
Lemma sum3 (F : 'I_3 -> R) : \sum_i F i = Rplus (F i0) (Rplus (F i1) (F i2)).
Proof. rewrite !big_ord_recl big_ord0 addr0. congr (Rplus (F _) (Rplus (F _) (F _))); exact: val_inj. Qed.
Lemma cramer a b c d e f g h i u v w x y z :
  Rplus (Rmult a x) (Rplus (Rmult b y) (Rmult c z)) = u -> Rplus (Rmult d x) (Rplus (Rmult e y) (Rmult f z)) = v ->
  Rplus (Rmult g x) (Rplus (Rmult h y) (Rmult i z)) = w -> rdet a b c d e f g h i <> R0 ->
  x = Rdiv (rdet u b c v e f w h i) (rdet a b c d e f g h i) /\ y = Rdiv (rdet a u c d v f g w i) (rdet a b c d e f g h i) /\
  z = Rdiv (rdet a b u d e v g h w) (rdet a b c d e f g h i).
Proof. move=> <- <- <- D. rewrite /rdet in D *. split; [|split]; field; exact: D. Qed.
Lemma cramer_ok a b c d e f g h i u v w : let D := rdet a b c d e f g h i in
  let x := Rdiv (rdet u b c v e f w h i) D in let y := Rdiv (rdet a u c d v f g w i) D in let z := Rdiv (rdet a b u d e v g h w) D in
  D <> R0 ->
  Rplus (Rmult a x) (Rplus (Rmult b y) (Rmult c z)) = u /\ Rplus (Rmult d x) (Rplus (Rmult e y) (Rmult f z)) = v /\
  Rplus (Rmult g x) (Rplus (Rmult h y) (Rmult i z)) = w.
Proof. move=> D x y z H. rewrite /x /y /z /D /rdet in H *. split; [|split]; field; exact: H. Qed.
Lemma r_solve (ldlt : solver) (A : 'M[R]_3) (b : 'cV[R]_3) l m n (P : dvec -> Prop) : ldlt_ok ldlt -> psd A ->
  inm A l -> inm b m -> nz (det3 l) -> cram l m = n -> (forall x : 'cV[R]_3, inm x n -> P (DV x)) -> holds (ldlt (DM A) (DV b)) P.
Proof.
  move=> L HP HA Hb HN <- H.
  pose D := rdet (A i0 i0) (A i0 i1) (A i0 i2) (A i1 i0) (A i1 i1) (A i1 i2) (A i2 i0) (A i2 i1) (A i2 i2).
  have RD : rng D (det3 l).
  { rewrite /D /rdet /det3. apply: rng_add; [apply: rng_sub|]; (apply: rng_mul; [exact: HA|apply: rng_sub; apply: rng_mul; exact: HA]). }
  have ND := rng_nz _ _ RD HN.
  have [E0 [E1 E2]] := @cramer_ok (A i0 i0) (A i0 i1) (A i0 i2) (A i1 i0) (A i1 i1) (A i1 i2) (A i2 i0) (A i2 i1) (A i2 i2) (b i0 0) (b i1 0) (b i2 0) ND.
  have Ord : forall P : 'I_3 -> Prop, P i0 -> P i1 -> P i2 -> forall i, P i.
  { move=> Q Q0 Q1 Q2 i. case: i => [[|[|[|//]]] Hi]; [move: Q0|move: Q1|move: Q2]; congr Q; exact: val_inj. }
  pose X := Rdiv (rdet (b i0 0) (A i0 i1) (A i0 i2) (b i1 0) (A i1 i1) (A i1 i2) (b i2 0) (A i2 i1) (A i2 i2)) D.
  pose Y := Rdiv (rdet (A i0 i0) (b i0 0) (A i0 i2) (A i1 i0) (b i1 0) (A i1 i2) (A i2 i0) (b i2 0) (A i2 i2)) D.
  pose Z := Rdiv (rdet (A i0 i0) (A i0 i1) (b i0 0) (A i1 i0) (A i1 i1) (b i1 0) (A i2 i0) (A i2 i1) (b i2 0)) D.
  have Sol : A *m mx_of 3 1 [:: [:: X]; [:: Y]; [:: Z]] = b.
  { apply/matrixP => i j. rewrite ord1 mxE sum3 !mxE /=. move: i. apply: Ord; [exact: E0|exact: E1|exact: E2]. }
  have [x [-> Ex]] := L _ _ _ _ HP Sol. apply: H. apply: in_tab => i j. rewrite ord1 /=.
  have K k : Rplus (Rmult (A k i0) (x i0 0)) (Rplus (Rmult (A k i1) (x i1 0)) (Rmult (A k i2) (x i2 0))) = b k 0.
  { by rewrite -Ex mxE sum3. }
  have [X0 [X1 X2]] := cramer (K i0) (K i1) (K i2) ND.
  move: i. apply: Ord; [rewrite X0|rewrite X1|rewrite X2]; apply: rng_div => //; rewrite /rdet /det3 /put !at_tab //=;
    (apply: rng_add; [apply: rng_sub|]; (apply: rng_mul; [first [exact: HA|exact: (Hb _ 0)]|
      apply: rng_sub; apply: rng_mul; first [exact: HA|exact: (Hb _ 0)]])).
Qed.

Lemma psd_diag n (d : 'rV[R]_n) : (forall i, Rle 0 (d 0 i)) -> psd (diag_mx d).
Proof.
  move=> H. rewrite diag_mx_sum_delta. apply: psd_sum => i. apply: psdZ => //.
  rewrite -(mul_delta_mx (0 : 'I_1)).
  have -> : delta_mx 0 i = (delta_mx i 0)^T :> 'M[R]_(1, n) by rewrite trmx_delta.
  exact: psd_outer.
Qed.

(** BatchLeastSquaresTest.cpp 46-84, for every solver that meets the contract of
    LDLT. *)
Definition H93 := mq 9 3 [:: [:: 1.07; 4.56; 2.21]; [:: 0.74; 1.45; 3.46]; [:: 2.12; 6.65; 9.45];
  [:: 1.07; 4.56; 2.21]; [:: 0.74; 1.45; 3.46]; [:: 2.12; 6.65; 9.45];
  [:: 1.07; 4.56; 2.21]; [:: 0.74; 1.45; 3.46]; [:: 2.12; 6.65; 9.45]]%q.
Definition y9 := mq 9 1 [:: [:: 3.5624]; [:: 7.3716]; [:: 2.2897]; [:: 3.2618]; [:: 7.1234]; [:: 2.0987];
  [:: 3.7215]; [:: 7.3546]; [:: 2.6815]]%q.
Ltac solve3 := lazymatch goal with |- holds (_ (DM ?a) (DV ?b)) _ => let p := mv a in let q := mv b in
  lazymatch type of p with inm _ ?l => lazymatch type of q with inm _ ?m => let n := eval vm_compute in (cram l m) in
  refine (@r_solve _ a b l m n _ _ _ p q (Logic.eq_refl true <: nz (det3 l) = true) (Logic.eq_refl n <: cram l m = n) _);
    [assumption| |intros ? ?] end end end; red_.
Ltac close := lazymatch goal with |- Rle (Rabs ?e) ?b =>
  let p := ev (Rabs e) in let q := ev b in lazymatch type of p with rng _ ?i => lazymatch type of q with rng _ ?j =>
    exact (rng_le _ _ _ _ p q (Logic.eq_refl true <: Z.leb (snd i) (fst j) = true)) end end end.
Example unweighted_ok (ldlt : solver) (x0 : 'cV[R]_3) (J : R) : ldlt_ok ldlt ->
  passes (UnweightedLinearLeastSquares ldlt (DV y9) (DM H93) (DV x0) J) (fun o =>
    isApprox (coeffsv o.1) (map Q2R [:: 48.635615; -8.307677; -4.815325]%q) (Q2R 1e-6) /\
    Rle (Rabs (Rminus o.2 (Q2R 0.161998))) 1e-6%re).
Proof.
  move=> L. rewrite /passes /UnweightedLinearLeastSquares /ComputeCostFunction. rewrite /y9 /H93. red_.
  rewrite mul_ok. apply: holds_bind. apply: holds_ret. rewrite mulv_ok. apply: holds_bind. apply: holds_ret. apply: holds_bind.
  solve3. { have E (H : 'M[R]_(9, 3)) : psd (H^T *m H) by have := psd_congrT H (psd1 9); rewrite mulmx1. exact: E. }
  repeat mstep. split=> //. split; [near|close].
Qed.

(** BatchLeastSquaresTest.cpp 143-192.  The test writes out the diagonal matrix Wk. *)
Definition W99 := diag_mx (mq 1 9 [:: [:: 2.15; 2.15; 2.15; 4.83; 4.83; 4.83; 3.24; 3.24; 3.24]]%q).
Example weighted_ok (ldlt : solver) (x0 : 'cV[R]_3) (J : R) : ldlt_ok ldlt ->
  passes (WeightedLinearLeastSquares ldlt (DV y9) (DM H93) (DM W99) (DV x0) J) (fun o =>
    isApprox (coeffsv o.1) (map Q2R [:: 48.410241; -8.276837; -4.789958]%q) (Q2R 1e-6) /\
    Rle (Rabs (Rminus o.2 (Q2R 0.168359))) 1e-6%re).
Proof.
  move=> L. rewrite /passes /WeightedLinearLeastSquares /ComputeCostFunction. rewrite /y9 /H93 /W99. red_.
  rewrite mul_ok. apply: holds_bind. apply: holds_ret. rewrite mul_ok. apply: holds_bind. apply: holds_ret.
  rewrite mulv_ok. apply: holds_bind. apply: holds_ret. apply: holds_bind.
  solve3. { apply: psd_congrT. apply: psd_diag => i. rewrite mxE. case: i => [[|[|[|[|[|[|[|[|[|//]]]]]]]]] Hi] /=; rewrite /Q2R /=; lra. }
  repeat mstep. split=> //. split; [near|close].
Qed.
