(** Tools to run the unit tests of /repo/test on the models. *)
From Coq Require Import Reals List Lra.
From Verif Require Import Base BaseVec CheckNum.
From Flocq Require Import Core.
Import ListNotations.
Open Scope R_scope.

(** Eigen's isApprox on the coefficients of two objects of the same size. *)
Definition sumsq (l : list R) : R := fold_right (fun x s => x * x + s) 0 l.
Fixpoint diff (a b : list R) : list R :=
  match a, b with x :: a, y :: b => (x - y) :: diff a b | _, _ => [] end.
Definition isApprox (a b : list R) (prec : R) : Prop :=
  length a = length b /\ sumsq (diff a b) <= prec * prec * Rmin (sumsq a) (sumsq b).
Definition coeffs3 (v : vec3) : list R := [vx v; vy v; vz v].
Definition coeffs9 (A : mat3) : list R := [m11 A; m12 A; m13 A; m21 A; m22 A; m23 A; m31 A; m32 A; m33 A].

(** The call returns a finite value that satisfies [P]. *)
Definition holds {A : Type} (o : outcome A) (P : A -> Prop) : Prop :=
  match o with Ret a => P a | _ => False end.
(** The call returns true, and [P] holds of the output. *)
Definition passes {A : Type} (o : outcome (bool * A)) (P : A -> Prop) : Prop := holds o (fun r => fst r = true /\ P (snd r)).
Definition fails {A : Type} (o : outcome (bool * A)) : Prop := holds o (fun r => fst r = false).

Lemma holds_bind A B (o : outcome A) (k : A -> outcome B) P : holds o (fun x => holds (k x) P) -> holds (bind o k) P.
Proof. now destruct o. Qed.
Lemma holds_ret A (a : A) (P : A -> Prop) : P a -> holds (Ret a) P.
Proof. trivial. Qed.
Lemma holds_div a b i (P : R -> Prop) : b <> 0 -> rng (a / b) i -> (forall x, rng x i -> P x) -> holds (Rdivc a b) P.
Proof. intros N R H. unfold Rdivc. destruct (Req_EM_T b 0); [easy|]. now apply H. Qed.
Lemma holds_sqrt a i j (P : R -> Prop) : rng a j -> inn j = true -> rng (sqrt a) i -> (forall x, rng x i -> P x) -> holds (sqrtc a) P.
Proof. intros J N R H. unfold sqrtc. pose proof (rng_nn _ _ J N). destruct (Rlt_dec a 0); [lra|]. now apply H. Qed.
Lemma holds_asin a i l h (P : R -> Prop) : -1 <= a -> a <= 1 -> rng a i -> asin_ok i l h = true -> (forall x, rng x (l, h) -> P x) -> holds (asinc a) P.
Proof.
  intros A B J N H. unfold asinc. destruct (Rlt_dec a (-1)); [lra|]. destruct (Rlt_dec 1 a); [lra|]. apply H. now apply rng_asin with i.
Qed.
Lemma holds_fmod a b i (P : R -> Prop) : b <> 0 -> rng (a - IZR (Ztrunc (a / b)) * b) i -> (forall x, rng x i -> P x) -> holds (fmodc a b) P.
Proof. intros N R H. unfold fmodc. destruct (Req_EM_T b 0); [easy|]. now apply H. Qed.
Lemma atan2_r y x : 0 < x -> atan2 y x = atan (y / x).
Proof. intros H. unfold atan2. destruct (Rlt_dec 0 x); [auto|lra]. Qed.
Lemma atan2_l y x : x < 0 -> 0 <= y -> atan2 y x = atan (y / x) + PI.
Proof. intros H K. unfold atan2. destruct (Rlt_dec 0 x); [lra|]. destruct (Rlt_dec x 0); [|lra]. destruct (Rlt_dec y 0); [lra|auto]. Qed.
Lemma atan2_l2 y x : x < 0 -> y < 0 -> atan2 y x = atan (y / x) - PI.
Proof. intros H K. unfold atan2. destruct (Rlt_dec 0 x); [lra|]. destruct (Rlt_dec x 0); [|lra]. destruct (Rlt_dec y 0); [auto|lra]. Qed.
Lemma Rltb_t x y : x < y -> Rltb' x y = true.
Proof. unfold Rltb'. now destruct (Rlt_dec x y). Qed.
Lemma Rltb_f x y : y <= x -> Rltb' x y = false.
Proof. unfold Rltb'. destruct (Rlt_dec x y); auto. lra. Qed.
Lemma Rleb_t x y : x <= y -> Rleb' x y = true.
Proof. unfold Rleb'. now destruct (Rle_dec x y). Qed.
Lemma Rleb_f x y : y < x -> Rleb' x y = false.
Proof. unfold Rleb'. destruct (Rle_dec x y); auto. lra. Qed.
Lemma if_t A x y (a b : A) : x < y -> (if Rlt_dec x y then a else b) = a.
Proof. now destruct (Rlt_dec x y). Qed.
Lemma if_f A x y (a b : A) : y <= x -> (if Rlt_dec x y then a else b) = b.
Proof. destruct (Rlt_dec x y); auto. lra. Qed.
Lemma ifle_t A x y (a b : A) : x <= y -> (if Rle_dec x y then a else b) = a.
Proof. now destruct (Rle_dec x y). Qed.
Lemma ifle_f A x y (a b : A) : y < x -> (if Rle_dec x y then a else b) = b.
Proof. destruct (Rle_dec x y); auto. lra. Qed.

(** One step of a model. *)
Ltac less x y := let p := ev x in let q := ev y in lazymatch type of p with rng _ ?i => lazymatch type of q with rng _ ?j =>
  constr:(rng_lt _ _ _ _ p q (eq_refl true <: (snd i <? fst j)%Z = true)) end end.
Ltac leq x y := let p := ev x in let q := ev y in lazymatch type of p with rng _ ?i => lazymatch type of q with rng _ ?j =>
  constr:(rng_le _ _ _ _ p q (eq_refl true <: (snd i <=? fst j)%Z = true)) end end.
(** Replace a number by a variable in its range. *)
Ltac forget e := lazymatch e with
  | IZR _ => idtac
  | _ => tryif is_var e then idtac else
    (let p := ev e in let x := fresh "x" in set (x := e) in *; clearbody x) end.
Ltac tidy := repeat match goal with H : rng ?e _ |- _ => tryif first [is_var e | is_const e] then fail else clear H end.
Ltac step := lazymatch goal with
  | |- holds (bind _ _) _ => apply holds_bind
  | |- holds (Rdivc ?a ?b) _ => let q := ev b in let p := ev (a / b) in lazymatch type of q with rng _ ?j =>
      refine (holds_div a b _ _ (rng_nz _ _ q (eq_refl true <: (ipos j || ineg j)%bool = true)) p _); intros ? ? end
  | |- holds (sqrtc ?a) _ => let q := ev a in let p := ev (sqrt a) in lazymatch type of q with rng _ ?j =>
      refine (holds_sqrt a _ _ _ q (eq_refl true <: inn j = true) p _); intros ? ? end
  | |- holds (asinc ?a) _ => let q := ev a in
      let A := leq (-1) a in let B := leq a 1 in lazymatch type of q with rng _ ?i =>
      let g := eval vm_compute in (guess_asin i) in lazymatch g with (?l, ?h) =>
      refine (holds_asin a i l h _ A B q (eq_refl true <: asin_ok i l h = true) _); intros ? ? end end
  | |- holds (fmodc ?a ?b) _ => let q := ev b in let p := ev (a - IZR (Ztrunc (a / b)) * b) in lazymatch type of q with rng _ ?j =>
      refine (holds_fmod a b _ _ (rng_nz _ _ q (eq_refl true <: (ipos j || ineg j)%bool = true)) p _); intros ? ? end
  | |- holds (Ret _) _ => apply holds_ret
  | |- context [Rltb' ?x ?y] => first [let L := less x y in rewrite (Rltb_t x y L) | let L := leq y x in rewrite (Rltb_f x y L)]
  | |- context [Rleb' ?x ?y] => first [let L := leq x y in rewrite (Rleb_t x y L) | let L := less y x in rewrite (Rleb_f x y L)]
  | |- context [Rlt_dec ?x ?y] => first [let L := less x y in rewrite (if_t _ x y _ _ L) | let L := leq y x in rewrite (if_f _ x y _ _ L)]
  | |- context [Rle_dec ?x ?y] => first [let L := leq x y in rewrite (ifle_t _ x y _ _ L) | let L := less y x in rewrite (ifle_f _ x y _ _ L)]
  end; cbn beta iota zeta delta [fst snd negb andb orb vx vy vz m11 m12 m13 m21 m22 m23 m31 m32 m33].
Ltac guards := repeat match goal with |- context [Rlt_dec ?x ?y] =>
  first [let L := less x y in rewrite (if_t _ x y _ _ L) | let L := leq y x in rewrite (if_f _ x y _ _ L)] end.
Ltac angle := match goal with |- context [atan2 ?y ?x] =>
  first [let L := less 0 x in rewrite (atan2_r y x L)
        |let L := less x 0 in first [let K := leq 0 y in rewrite (atan2_l y x L K) | let K := less y 0 in rewrite (atan2_l2 y x L K)]] end.
Ltac approx := unfold isApprox; split; [reflexivity|];
  cbn [sumsq diff fold_right vscale vadd vsub vneg fst snd coeffs3 coeffs9 mat3_of_MX MX_of_mat3 mx_at vx vy vz m11 m12 m13 m21 m22 m23 m31 m32 m33];
  apply Rmin_case; num_le.
