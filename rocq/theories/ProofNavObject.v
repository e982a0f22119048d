(** The navigator with its private members against the one without. *)
From Coq Require Import Reals ZArith List Lra Lia.
From Verif Require Import Base BaseVec ModelAttitude ModelGravity ModelNavUtils ModelStrapdown ModelNavObject SpecStrapdown ProofStrapdown.
Import ListNotations.
Open Scope R_scope.

(** The public members. *)
Definition public (o : Object) : Nav := NavS (o_RB2N o) (o_pv o) (o_tov o) (o_dt o).

Lemma integrate_public dV dTh t o : (r <- integrate_obj dV dTh t o ;; Ret (fst r, Some (public (snd r)))) = integrate dV dTh t (Some (public o)).
Proof.
  destruct o as [p A v d pp AA vv]. unfold integrate_obj, integrate, public, updateAttitude_obj. cbn [o_pv o_RB2N o_tov o_dt o_pvPrev o_RB2NPrev o_tovPrev RB2N pv tov dt].
  destruct (orb _ _); [reflexivity|]. destruct A as [A|]; [|cbn; destruct p as [[? ?]|]; reflexivity].
  destruct (updateAttitude A dTh) as [[[|] A']| | | |]; cbn [bind negb o_pv o_RB2N o_tov o_dt o_pvPrev o_RB2NPrev o_tovPrev]; try reflexivity.
  - destruct p as [[lla w]|]; [|reflexivity]. destruct (gravityNed (vx lla) (vz lla)) as [[[|] g]| | | |]; try reflexivity.
    destruct (strapdownRk4 _ _ _ _ _) as [[[|] l]| | | |]; try reflexivity.
    do 6 (destruct l as [|? l]; try reflexivity). destruct l; reflexivity.
Qed.
Lemma integrate_private dV dTh t o b o' : integrate_obj dV dTh t o = Ret (b, o') ->
  o_pvPrev o' = o_pv o /\ o_RB2NPrev o' = o_RB2N o /\ o_tovPrev o' = o_tov o.
Proof.
  destruct o as [p A v d pp AA vv]. unfold integrate_obj, updateAttitude_obj. cbn [o_pv o_RB2N o_tov o_dt o_pvPrev o_RB2NPrev o_tovPrev].
  destruct (orb _ _); [discriminate|].
  assert (G : forall X B q l, Ret (X, Obj q B t l p A v) = Ret (b, o') :> outcome (bool * Object) -> o_pvPrev o' = p /\ o_RB2NPrev o' = A /\ o_tovPrev o' = v).
  { intros X B q l E. injection E as <- <-. auto. }
  destruct A as [A|]; [|cbn; destruct p as [[? ?]|]; apply G].
  destruct (updateAttitude A dTh) as [[[|] A']| | | |]; cbn [bind negb o_pv o_RB2N o_tov o_dt o_pvPrev o_RB2NPrev o_tovPrev]; try discriminate; try apply G.
  - destruct p as [[lla w]|]; [|apply G]. destruct (gravityNed (vx lla) (vz lla)) as [[[|] g]| | | |]; try discriminate; try apply G.
    destruct (strapdownRk4 _ _ _ _ _) as [[[|] l]| | | |]; try discriminate; try apply G.
    do 6 (destruct l as [|? l]; try discriminate). destruct l; [apply G|discriminate].
Qed.
Lemma initialize_public lla vNed rph t o : (fst (initialize_obj lla vNed rph t o), Some (public (snd (initialize_obj lla vNed rph t o)))) = initialize lla vNed rph t (Some (public o)).
Proof. destruct o. unfold initialize_obj, initialize. destruct (euler2Dcm rph) as [ok R0] eqn:E. unfold euler2Dcm in E. injection E as <- _. reflexivity. Qed.

Lemma act_public a o o' : public o = public o' ->
  (r <- act a o ;; Ret (public r)) = (r <- act a o' ;; Ret (public r)).
Proof.
  intros H. assert (D : forall dV dTh t, (r <- integrate_obj dV dTh t o ;; Ret (fst r, Some (public (snd r)))) = (r <- integrate_obj dV dTh t o' ;; Ret (fst r, Some (public (snd r))))).
  { intros. now rewrite !integrate_public, H. }
  destruct a as [lla w r t|dV dTh t|lla w|A|t]; cbn [act bind].
  - pose proof (initialize_public lla w r t o) as E. rewrite H, <- initialize_public in E. congruence.
  - specialize (D dV dTh t). destruct (integrate_obj dV dTh t o) as [[b x]| | | |], (integrate_obj dV dTh t o') as [[b' x']| | | |]; cbn [bind fst snd] in *; try discriminate D; try reflexivity.
    congruence.
  - destruct o, o'; injection H as -> -> -> ->; reflexivity.
  - destruct o, o'; injection H as -> -> -> ->; reflexivity.
  - destruct o, o'; injection H as -> -> -> ->; reflexivity.
Qed.
Lemma acts_public l : forall o o', public o = public o' -> (r <- acts l o ;; Ret (public r)) = (r <- acts l o' ;; Ret (public r)).
Proof.
  induction l as [|a l IH]; intros o o' H; cbn [acts bind]; [now rewrite H|].
  pose proof (act_public a o o' H) as E. destruct (act a o) as [x| | | |], (act a o') as [x'| | | |]; cbn [bind] in *; try discriminate E; try reflexivity.
  injection E as E1 E2 E3 E4. apply IH. unfold public. now rewrite E1, E2, E3, E4.
Qed.
Lemma same_public l o o' : o_pv o = o_pv o' -> o_RB2N o = o_RB2N o' -> o_tov o = o_tov o' -> o_dt o = o_dt o' ->
  (forall r, acts l o = Ret r -> exists r', acts l o' = Ret r' /\ o_pv r' = o_pv r /\ o_RB2N r' = o_RB2N r /\ o_tov r' = o_tov r /\ o_dt r' = o_dt r) /\
  (acts l o = Undef -> acts l o' = Undef).
Proof.
  intros H1 H2 H3 H4. assert (P : public o = public o') by (unfold public; congruence). pose proof (acts_public l o o' P) as E. split.
  - intros r Er. rewrite Er in E. cbn [bind] in E. destruct (acts l o') as [r'| | | |]; try discriminate E. cbn [bind] in E. injection E as E1 E2 E3 E4. exists r'. repeat split; congruence.
  - intros Er. rewrite Er in E. cbn [bind] in E. destruct (acts l o'); try discriminate E. reflexivity.
Qed.
Lemma object_integrate dV dTh t o :
  integrate dV dTh t (Some (NavS (o_RB2N o) (o_pv o) (o_tov o) (o_dt o))) =
  (r <- integrate_obj dV dTh t o ;; let '(b, o') := r in Ret (b, Some (NavS (o_RB2N o') (o_pv o') (o_tov o') (o_dt o')))).
Proof. change (NavS (o_RB2N o) (o_pv o) (o_tov o) (o_dt o)) with (public o). rewrite <- integrate_public. destruct (integrate_obj dV dTh t o) as [[b o']| | | |]; reflexivity. Qed.
Lemma object_initialize lla vNed rph t o :
  let '(b, o') := initialize_obj lla vNed rph t o in
  initialize lla vNed rph t (Some (NavS (o_RB2N o) (o_pv o) (o_tov o) (o_dt o))) = (b, Some (NavS (o_RB2N o') (o_pv o') (o_tov o') (o_dt o'))).
Proof. pose proof (initialize_public lla vNed rph t o) as E. destruct (initialize_obj lla vNed rph t o) as [b o']. symmetry. exact E. Qed.
Lemma object_case : exists o, acts [SetPv (V3 (1/2) 1 100) v3zero; SetRB2N m3id; SetTov 0; Integrate (V3 0 0 (-(1/10))) (V3 0 0 (1/1000)) 10000] (Obj None None 0 0 None None 0) = Ret o /\
  o_tov o = 10000%Z /\ o_dt o = 1 / 100 /\ (exists A, o_RB2N o = Some A) /\ o_RB2NPrev o = Some m3id.
Proof.
  cbn [acts act bind o_pv o_RB2N o_tov o_dt o_pvPrev o_RB2NPrev o_tovPrev].
  set (q := Obj _ _ _ _ _ _ _). assert (D : V3 0 0 (1/1000) <> v3zero) by (intros E; injection E; lra).
  pose proof (integrate_public (V3 0 0 (-(1/10))) (V3 0 0 (1/1000)) 10000 q) as E.
  destruct (integrate_eq (V3 0 0 (-(1/10))) (V3 0 0 (1/1000)) 10000 (public q)) as [I _]. rewrite I in E by (unfold fits; cbn; lia). clear I.
  destruct (integrate_obj _ _ _ q) as [[b x]| | | |] eqn:G; try discriminate E. cbn [bind fst snd] in E.
  pose proof (f_equal (fun z => match z with Ret (_, Some n) => n | _ => public q end) E) as P. cbv beta iota in P.
  exists x. split; [reflexivity|]. split; [exact (f_equal tov P)|]. split; [rewrite (f_equal dt P : o_dt x = _); cbn [dt public q o_tov tov]; cbn; lra|].
  split; [|exact (proj1 (proj2 (integrate_private _ _ _ _ _ _ G)))].
  rewrite (f_equal RB2N P : o_RB2N x = _). cbn [RB2N next_att public q o_RB2N]. rewrite updateAttitude_ok by exact D. eauto.
Qed.
