(** The unit tests of /repo/test/RotationsTest.cpp on the Earth-orientation table
    and the J2000 / ECEF rotation, proved of the models. *)
From Coq Require Import Reals ZArith List Lra String.
From Flocq Require Import Core.
From Verif Require Import Base BaseVec CheckNum TestBase ModelDate ModelEop ModelJ2k.
Import ListNotations.
Open Scope R_scope.

(** 222-236: the file does not exist. *)
Example eop_missing stod fs st : fi_in (fs "../test/testData/EOP-Last6Years.csv"%string) = false ->
  fst (getEops stod fs "../test/testData/EOP-Last6Years.csv" st) = Ret false.
Proof. intros E. unfold getEops. rewrite E. reflexivity. Qed.
(** 239-253, 451-465 *)
Example j2k_size st f M : fails (computeRJ2k2Ecef st [2022; 0; 0; 0; 0; 0; 0] f M) /\ fails (computeREcef2J2k st [2022; 0; 0; 0; 0; 0; 0] f M).
Proof. split; reflexivity. Qed.
(** 290-436 and 502-648: every range check, whatever the table holds. *)
Ltac reject := unfold fails, computeRJ2k2Ecef, computeREcef2J2k; cbn [Datatypes.length Nat.eqb negb]; step; unfold convertDatevec2Mjd, convertDatevec2Mjd_with; repeat step; reflexivity.
Example j2k_ranges st f M : Forall (fun d => fails (computeRJ2k2Ecef st d f M) /\ fails (computeREcef2J2k st d f M))
  [[2022; 13; 0; 0; 0; 0]; [2022; -1; 0; 0; 0; 0]; [2022; 12; 32; 0; 0; 0]; [2022; 12; -1; 0; 0; 0];
   [2022; 12; 30; 24; 0; 0]; [2022; 12; 30; -1; 0; 0]; [2022; 12; 30; 23; 60; 0]; [2022; 12; 30; 23; -1; 0];
   [2022; 12; 30; 23; 59; 60]; [2022; 12; 30; 23; 59; -1]].
Proof. repeat (apply Forall_cons; [split; reject|]). apply Forall_nil. Qed.

(** The rows of EOP-Last5Years.csv for 2 and 3 October 2020 (lines 1372-1373). *)
Definition loaded (st : RotState) : Prop := eopsSet st = true /\ exists i,
  findIndex 59124 (e_mjd (eops st)) = Some i /\ i <> (List.length (e_mjd (eops st)) - 1)%nat /\
  nth_error (e_xPole (eops st)) i = Some 0.192652 /\ nth_error (e_xPole (eops st)) (S i) = Some 0.191328 /\
  nth_error (e_yPole (eops st)) i = Some 0.323725 /\ nth_error (e_yPole (eops st)) (S i) = Some 0.322856 /\
  nth_error (e_ut1 (eops st)) i = Some (-0.1732413) /\ nth_error (e_ut1 (eops st)) (S i) = Some (-0.1731044) /\
  nth_error (e_lod (eops st)) i = Some (-0.0001769) /\ nth_error (e_lod (eops st)) (S i) = Some (-0.0001385) /\
  nth_error (e_tai (eops st)) i = Some 37.

Lemma fold_step l lp F D Om T c cs s (Q : R -> R -> Prop) :
  (exists x y, fold_left (nutationStep l lp F D Om T) cs (nutationStep l lp F D Om T s c) = (x, y) /\ Q x y) ->
  exists x y, fold_left (nutationStep l lp F D Om T) (c :: cs) s = (x, y) /\ Q x y.
Proof. trivial. Qed.
Lemma holds_fold l lp F D Om T cs s A (k : R -> R -> outcome A) P (Q : R -> R -> Prop) :
  (exists x y, fold_left (nutationStep l lp F D Om T) cs s = (x, y) /\ Q x y) ->
  (forall x y, Q x y -> holds (k x y) P) -> holds (let s := fold_left (nutationStep l lp F D Om T) cs s in k (fst s) (snd s)) P.
Proof. intros (x & y & E & H) K. rewrite E. now apply K. Qed.
Ltac rowstep := apply fold_step; unfold nutationStep at 2; cbn beta iota delta [fst snd];
  match goal with |- exists x y, fold_left _ _ (?a, ?b) = _ /\ _ => forget a; forget b end; tidy.
Ltac reduced := apply holds_bind; unfold reduceArg; cbn zeta; step; step; guards; match goal with |- holds (Ret ?e) _ => forget e end; apply holds_ret; cbn beta.
Ltac nutation := unfold nutationAngles, mjdJ2000; cbn zeta;
  match goal with |- context [(?m - ?c) / ?d] => forget ((m - c) / d) end; do 5 reduced; tidy;
  eapply (holds_fold _ _ _ _ _ _ nutationTable (0, 0) _ (fun x y => Ret (true, (0.00001 * x / Arcs, 0.00001 * y / Arcs))) _ (fun x y => rng x _ /\ rng y _));
  [ unfold nutationTable; forget 0; do 106 rowstep; cbn [fold_left]; eexists; eexists; split; [reflexivity|]; split; eassumption
  | let u := fresh "u" in let v := fresh "v" in intros u v (? & ?); apply holds_ret; cbn [fst snd]; split; [reflexivity|];
    split; [let p := ev (0.00001 * u / Arcs) in exact p|let p := ev (0.00001 * v / Arcs) in exact p] ].
Lemma holds_inv0 (o : outcome R) i : holds o (fun r => rng r i) -> exists x, o = Ret x /\ rng x i.
Proof. destruct o; cbn; try easy. eauto. Qed.
Lemma holds_inv1 (o : outcome (bool * R)) i : holds o (fun r => fst r = true /\ rng (snd r) i) -> exists x, o = Ret (true, x) /\ rng x i.
Proof. destruct o as [(b & x)| | | | ]; cbn; try easy. intros (-> & H). eauto. Qed.
Lemma holds_inv2 (o : outcome (bool * (R * R))) i j :
  holds o (fun r => fst r = true /\ rng (fst (snd r)) i /\ rng (snd (snd r)) j) -> exists x y, o = Ret (true, (x, y)) /\ rng x i /\ rng y j.
Proof. destruct o as [(b & x & y)| | | | ]; cbn; try easy. intros (-> & H & K). eauto. Qed.
Lemma floor_val x i n : rng x i -> floor_ok i n = true -> Rfloor x = IZR n.
Proof. intros H E. unfold Rfloor. f_equal. apply Zfloor_imp. pose proof (floor_is _ _ _ H E). rewrite plus_IZR. lra. Qed.

(** One matrix product. *)
Ltac product := match goal with |- context [mmul (M3 ?a ?b ?c ?d ?e ?f ?g ?h ?i) (M3 ?j ?k ?l ?m ?n ?o ?p ?q ?r)] =>
  let t := constr:(mmul (M3 a b c d e f g h i) (M3 j k l m n o p q r)) in
  let u := eval cbv [mmul m11 m12 m13 m21 m22 m23 m31 m32 m33] in t in change t with u;
  lazymatch u with M3 ?a ?b ?c ?d ?e ?f ?g ?h ?i => forget a; forget b; forget c; forget d; forget e; forget f; forget g; forget h; forget i end end; tidy.
(** The rotation of 2020-10-02 23:41:24. *)
Definition want : list R :=
  [0.9920445; 0.1258720; -0.0019661; -0.1258717; 0.9920465; 0.0002442; 0.0019812; 5.244e-06; 0.9999980].
Lemma both st f M : loaded st -> exists m,
  computeRJ2k2Ecef st [2020; 10; 2; 23; 41; 24] f M = Ret (true, m) /\
  computeREcef2J2k st [2020; 10; 2; 23; 41; 24] f M = Ret (true, mtr m) /\ isApprox (coeffs9 m) want (1 / 1000000).
Proof.
  intros (S & i & FI & L & X0 & X1 & Y0 & Y1 & U0 & U1 & L0 & L1 & T0).
  let p := ev (3600 * 180 / PI) in pose proof (p : rng Arcs _) as rgA.
  unfold computeRJ2k2Ecef, computeREcef2J2k. cbn [List.length Nat.eqb negb].
  eassert (C : holds (convertDatevec2Mjd [2020; 10; 2; 23; 41; 24] 0) (fun r => fst r = true /\ rng (snd r) _)).
  { unfold convertDatevec2Mjd, convertDatevec2Mjd_with, Rfloor. repeat step. split; [reflexivity|].
    match goal with |- rng ?e _ => let p := ev e in exact p end. }
  apply holds_inv1 in C. destruct C as (x & C & rgx). rewrite !C. clear C. cbn [bind negb]. tidy.
  assert (FL : Rfloor x = 59124) by (eapply floor_val; [exact rgx|vm_compute; reflexivity]).
  unfold getCurrentEop, at_. rewrite S, FL, FI. cbn [negb]. apply Nat.eqb_neq in L. rewrite L, X0, X1, Y0, Y1, U0, U1, L0, L1, T0. cbn [bind negb o_tai o_ut1 o_xPole o_yPole].
  clear - rgx rgA.
  forget (x + (-0.1732413 + (-0.1731044 - -0.1732413) * (x - 59124)) / 86400).
  forget (x + (32.184 - Ropp 37) / 86400). match goal with H : rng ?y _ |- context [computeNutation ?y] => rename y into tt end.
  match goal with H : rng ?y _ |- context [computeGreenwichHourAngle ?y] => rename y into ut end. tidy.
  unfold computeNutation, computeGreenwichHourAngle.
  eassert (N : holds (nutationAngles tt) (fun r => fst r = true /\ rng (fst (snd r)) _ /\ rng (snd (snd r)) _)).
  { nutation. }
  apply holds_inv2 in N. destruct N as (dpsi & deps & N & rgp & rge). rewrite !N. cbn [bind negb].
  unfold gmsTime, Rfloor, computePrecession, polarRotation, meanObliquity, rad, mjdJ2000. cbn beta zeta iota delta [bind].
  match goal with |- context [fmodc ?a ?b] => eassert (G : holds (fmodc a b) (fun r => rng r _)) by (step; eassumption);
    apply holds_inv0 in G; destruct G as (g & G & rgg); rewrite !G; clear G end.
  cbn [bind negb]. tidy. eexists. split; [reflexivity|]. split; [reflexivity|].
  repeat match goal with
    | |- context [elemX ?a] => forget a; unfold elemX at 1
    | |- context [elemY ?a] => forget a; unfold elemY at 1
    | |- context [elemZ ?a] => forget a; unfold elemZ at 1 end.
  repeat match goal with |- context [sin ?a] => forget (sin a) | |- context [cos ?a] => forget (cos a) end.
  repeat product. unfold want. approx.
Qed.
(** 439-448 and 651-690 *)
Example j2k_result st f M : loaded st ->
  passes (computeRJ2k2Ecef st [2020; 10; 2; 23; 41; 24] f M) (fun m => isApprox (coeffs9 m) want (1 / 1000000)) /\
  passes (computeREcef2J2k st [2020; 10; 2; 23; 41; 24] f M) (fun m => isApprox (coeffs9 (mtr m)) want (1 / 1000000)).
Proof.
  intros L. destruct (both st f M L) as (m & E & F & H). rewrite E, F. split; split; auto.
Qed.
Example j2k_loaded : loaded (RS true (Eops [59123; 59124; 59125] [0.193592; 0.192652; 0.191328] [0.324399; 0.323725; 0.322856]
  [-0.1734352; -0.1732413; -0.1731044] [-0.0002262; -0.0001769; -0.0001385] [37; 37; 37])).
Proof.
  split; [reflexivity|]. exists 1%nat. cbn [eops e_mjd e_xPole e_yPole e_ut1 e_lod e_tai findIndex nth_error List.length].
  destruct (Req_EM_T 59123 59124) as [E|E]; [lra|]. destruct (Req_EM_T 59124 59124) as [F|F]; [|lra]. repeat split. discriminate.
Qed.
(** 256-270 and 468-482 *)
Example j2k_unset st f M : eopsSet st = false ->
  fails (computeRJ2k2Ecef st [2020; 10; 2; 23; 41; 24] f M) /\ fails (computeREcef2J2k st [2020; 10; 2; 23; 41; 24] f M).
Proof.
  intros E. unfold fails, computeRJ2k2Ecef, computeREcef2J2k, convertDatevec2Mjd, convertDatevec2Mjd_with, getCurrentEop. cbn [List.length Nat.eqb negb].
  split; apply holds_bind; repeat lazymatch goal with |- holds (Ret _) _ => fail | _ => step end; apply holds_ret; cbn [negb]; rewrite E; reflexivity.
Qed.
(** 273-288 and 485-500: no row for 2 October 2025. *)
Lemma mjd_2025 : exists x, convertDatevec2Mjd [2025; 10; 2; 23; 41; 24] 0 = Ret (true, x) /\ Rfloor x = 60950.
Proof.
  eassert (C : holds (convertDatevec2Mjd [2025; 10; 2; 23; 41; 24] 0) (fun r => fst r = true /\ rng (snd r) _)).
  { unfold convertDatevec2Mjd, convertDatevec2Mjd_with, Rfloor. repeat step. split; [reflexivity|].
    match goal with |- rng ?e _ => let p := ev e in exact p end. }
  apply holds_inv1 in C. destruct C as (x & C & rgx). exists x. split; auto. eapply floor_val; [exact rgx|vm_compute; reflexivity].
Qed.
Example j2k_no_row st f M : findIndex 60950 (e_mjd (eops st)) = None ->
  fails (computeRJ2k2Ecef st [2025; 10; 2; 23; 41; 24] f M) /\ fails (computeREcef2J2k st [2025; 10; 2; 23; 41; 24] f M).
Proof.
  intros E. destruct mjd_2025 as (x & C & F). unfold fails, computeRJ2k2Ecef, computeREcef2J2k, getCurrentEop. cbn [List.length Nat.eqb negb].
  rewrite C. cbn [bind negb]. rewrite F, E. destruct (eopsSet st); split; reflexivity.
Qed.
