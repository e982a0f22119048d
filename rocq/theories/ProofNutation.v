(** The table of the code is the published one, in another order and other units. *)
From Coq Require Import Reals ZArith List Lra Lia Permutation Bool.
From Verif Require Import Base BaseVec SpecEop SpecJ2k SpecNutation ModelJ2k ProofJ2k.
Import ListNotations.
Open Scope R_scope.

Definition row : Type := (Z * Z * Z * Z * Z * Z * Z * Z * Z)%type.
Definition row_of (t : nut_term) : row :=
  let 'term D M M' F Om A A1 B B1 := t in (M', M, F, D, Om, (10 * A)%Z, A1, (10 * B)%Z, B1).
Definition row_dec (a b : row) : {a = b} + {a <> b}.
Proof. repeat decide equality. Defined.

Fixpoint take_out (a : row) (l : list row) : option (list row) :=
  match l with
  | [] => None
  | b :: l => if row_dec a b then Some l else match take_out a l with Some l' => Some (b :: l') | None => None end
  end.
Fixpoint permb (l m : list row) : bool :=
  match l with
  | [] => match m with [] => true | _ => false end
  | a :: l => match take_out a m with Some m' => permb l m' | None => false end
  end.
Lemma take_out_ok a l : forall l', take_out a l = Some l' -> Permutation (a :: l') l.
Proof.
  induction l as [|b l IH]; intros l'; cbn; [discriminate|]. destruct (row_dec a b) as [->|_].
  - intros [= ->]. reflexivity.
  - destruct (take_out a l) as [k|]; [|discriminate]. intros [= <-]. rewrite perm_swap. constructor. now apply IH.
Qed.
Lemma permb_ok l : forall m, permb l m = true -> Permutation l m.
Proof.
  induction l as [|a l IH]; intros m; cbn.
  - destruct m; [constructor|discriminate].
  - destruct (take_out a m) as [k|] eqn:E; [|discriminate]. intros H. apply take_out_ok in E. rewrite <- E. constructor. now apply IH.
Qed.
Lemma table_perm : Permutation (map row_of iau1980) nutationTable.
Proof. apply permb_ok. vm_compute. reflexivity. Qed.
Lemma Rsum_perm l m : Permutation l m -> Rsum l = Rsum m.
Proof. unfold Rsum. induction 1; cbn; lra. Qed.

Lemma arg_is T t : term_arg T (row_of t) = nut_arg T t.
Proof.
  destruct t as [D M M' F Om A A1 B B1]. unfold term_arg, nut_arg, row_of.
  assert (El : arg_l T * arcsec = moon_anomaly T) by (unfold arg_l, moon_anomaly, dms, revs, arcsec; lra).
  assert (Elp : arg_lp T * arcsec = sun_anomaly T) by (unfold arg_lp, sun_anomaly, dms, revs, arcsec; lra).
  assert (EF : arg_F T * arcsec = latitude_argument T) by (unfold arg_F, latitude_argument, dms, revs, arcsec; lra).
  assert (ED : arg_D T * arcsec = elongation T) by (unfold arg_D, elongation, dms, revs, arcsec; lra).
  assert (EO : arg_Om T * arcsec = node T) by (unfold arg_Om, node, dms, revs, arcsec; lra).
  rewrite <- El, <- Elp, <- EF, <- ED, <- EO. ring.
Qed.
Lemma term_psi_is T t : 0.00001 * term_psi T (row_of t) = nut_psi T t.
Proof.
  pose proof (arg_is T t) as E. destruct t as [D M M' F Om A A1 B B1]. unfold term_psi, nut_psi. cbn [row_of] in *. rewrite E.
  rewrite mult_IZR. lra.
Qed.
Lemma term_eps_is T t : 0.00001 * term_eps T (row_of t) = nut_eps T t.
Proof.
  pose proof (arg_is T t) as E. destruct t as [D M M' F Om A A1 B B1]. unfold term_eps, nut_eps. cbn [row_of] in *. rewrite E.
  rewrite mult_IZR. lra.
Qed.
Lemma sum_is (f : row -> R) (g : nut_term -> R) l : (forall t, 0.00001 * f (row_of t) = g t) ->
  0.00001 * Rsum (map f (map row_of l)) = fold_right Rplus 0 (map g l).
Proof.
  intros H. unfold Rsum. induction l as [|t l IH]; cbn [map fold_right]; [ring|]. rewrite <- IH, <- H. ring.
Qed.
Lemma dpsi_is T : dpsi_of T = psi1980 T.
Proof.
  unfold dpsi_of, psi1980, series. rewrite <- (Rsum_perm _ _ (Permutation_map (term_psi T) table_perm)).
  rewrite (sum_is _ (nut_psi T)); [reflexivity|]. apply term_psi_is.
Qed.
Lemma deps_is T : deps_of T = eps1980 T.
Proof.
  unfold deps_of, eps1980, series. rewrite <- (Rsum_perm _ _ (Permutation_map (term_eps T) table_perm)).
  rewrite (sum_is _ (nut_eps T)); [reflexivity|]. apply term_eps_is.
Qed.
Lemma nutation_is mjd : nutationAngles mjd = Ret (true, (psi1980 (centuries mjd), eps1980 (centuries mjd))).
Proof. rewrite <- dpsi_is, <- deps_is. apply nutationAngles_ok. Qed.
