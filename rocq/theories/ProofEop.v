(** Proofs about the Earth-orientation table. *)
From Coq Require Import Reals ZArith List String Ascii Bool Lra Lia.
From Flocq Require Import Core.Raux.
From Verif Require Import Base ModelEop SpecEop.
Import ListNotations.
Open Scope R_scope.

(** ** Text *)
Lemma sapp_assoc (a b c : string) : ((a ++ b) ++ c = a ++ (b ++ c))%string.
Proof. induction a; cbn; [reflexivity|now rewrite IHa]. Qed.
Lemma sapp_nil (a : string) : (a ++ "" = a)%string.
Proof. induction a; cbn; [reflexivity|now rewrite IHa]. Qed.

Lemma getlines_acc_delim d : forall s acc b rest, ~ In d (chars s) ->
  getlines_acc d acc (s ++ String d rest) b = (acc ++ s)%string :: getlines_acc d EmptyString rest false.
Proof.
  induction s as [|c s IH]; intros acc b rest H; cbn.
  - now rewrite Ascii.eqb_refl, sapp_nil.
  - destruct (Ascii.eqb_spec c d) as [E|E]; [exfalso; apply H; left; exact E|].
    rewrite IH by (intros X; apply H; right; exact X). now rewrite sapp_assoc.
Qed.

Lemma getlines_acc_end d : forall s acc b, ~ In d (chars s) ->
  getlines_acc d acc s b = if b || negb (String.eqb s EmptyString) then [(acc ++ s)%string] else [].
Proof.
  induction s as [|c s IH]; intros acc b H; cbn.
  - rewrite orb_false_r. now rewrite sapp_nil.
  - destruct (Ascii.eqb_spec c d) as [E|E]; [exfalso; apply H; left; exact E|].
    rewrite IH by (intros X; apply H; right; exact X). rewrite orb_true_r. cbn. now rewrite sapp_assoc.
Qed.

Lemma chars_app a b : chars (a ++ b) = chars a ++ chars b.
Proof. induction a; cbn; [reflexivity|now rewrite IHa]. Qed.

Lemma getlines_join : forall r, Forall (fun f => ~ In comma (chars f)) r -> r <> [] -> last r EmptyString <> EmptyString ->
  getlines comma (join r) = r.
Proof.
  induction r as [|f r IH]; intros HF Hn HL; [congruence|]. inversion HF; subst. destruct r as [|g r].
  - cbn [join]. unfold getlines. rewrite getlines_acc_end by auto. cbn in HL.
    destruct (String.eqb_spec f EmptyString); [congruence|reflexivity].
  - change (join (f :: g :: r)) with (f ++ String comma (join (g :: r)))%string.
    unfold getlines. rewrite getlines_acc_delim by auto. cbn [append]. f_equal. apply IH; auto. discriminate.
Qed.

Lemma join_no_nl r : Forall (fun f => ~ In newline (chars f)) r -> ~ In newline (chars (join r)).
Proof.
  induction r as [|f r IH]; intros H; [intros []|]. inversion H; subst. destruct r as [|g r]; [assumption|].
  change (join (f :: g :: r)) with (f ++ String comma (join (g :: r)))%string.
  rewrite chars_app. cbn [chars]. intros X. apply in_app_or in X as [X|[X|X]]; auto.
  - discriminate.
  - now apply IH.
Qed.

Lemma getlines_csv_rows rows : Forall (fun r => ~ In newline (chars (join r))) rows ->
  getlines newline (csv_rows rows) = map join rows.
Proof.
  induction rows as [|r rows IH]; intros H; [reflexivity|]. inversion H; subst. cbn [csv_rows map].
  unfold getlines. change (nl ++ csv_rows rows)%string with (String newline (csv_rows rows)).
  rewrite getlines_acc_delim by auto. cbn [append]. f_equal. now apply IH.
Qed.

Lemma csv_lines header rows : ~ In newline (chars header) -> Forall good_row rows ->
  tl (getlines newline (csv header rows)) = map join rows.
Proof.
  intros Hh Hr. unfold csv, getlines. change (nl ++ csv_rows rows)%string with (String newline (csv_rows rows)).
  rewrite getlines_acc_delim by auto. cbn [tl]. apply getlines_csv_rows.
  apply Forall_forall. intros r X. rewrite Forall_forall in Hr. destruct (Hr r X) as (_ & F & _).
  apply join_no_nl. eapply Forall_impl; [|exact F]. intros a [_ Y]. exact Y.
Qed.

Lemma good_row_fields r : good_row r -> getlines comma (join r) = r.
Proof.
  intros (H1 & H2 & H3). apply getlines_join; auto.
  - eapply Forall_impl; [|exact H2]. intros a [Y _]. exact Y.
  - intros ->. cbn in H1. lia.
Qed.

(** ** Rows *)
Section Stod.
Variable stod : string -> option R.

Definition app_row (t : EopTable) (a b c d e f : R) : EopTable :=
  Eops (e_mjd t ++ [a]) (e_xPole t ++ [b]) (e_yPole t ++ [c]) (e_ut1 t ++ [d]) (e_lod t ++ [e]) (e_tai t ++ [f]).

Lemma readColumns_tail : forall r k t, readColumns stod (11 + k) r t = Ret t.
Proof. induction r as [|x r IH]; intros k t; [reflexivity|]. cbn. apply (IH (S k)). Qed.

Definition row_numbers (r : list string) : option (R * R * R * R * R * R) :=
  match stod (nth 1 r ""%string), stod (nth 2 r ""%string), stod (nth 3 r ""%string),
        stod (nth 4 r ""%string), stod (nth 5 r ""%string), stod (nth 10 r ""%string) with
  | Some a, Some b, Some c, Some d, Some e, Some f => Some (a, b, c, d, e, f)
  | _, _, _, _, _, _ => None
  end.

Lemma readColumns_row r t : (11 <= List.length r)%nat ->
  readColumns stod 0 r t =
    match row_numbers r with Some (a, b, c, d, e, f) => Ret (app_row t a b c d e f) | None => Throw end.
Proof.
  intros H. unfold row_numbers.
  do 11 (destruct r as [|? r]; [cbn in H; lia|]). cbn [nth readColumns bind]. unfold stodc.
  destruct (stod s0); cbn [bind]; [|reflexivity].
  destruct (stod s1); cbn [bind e_mjd e_xPole e_yPole e_ut1 e_lod e_tai]; [|reflexivity].
  destruct (stod s2); cbn [bind e_mjd e_xPole e_yPole e_ut1 e_lod e_tai]; [|reflexivity].
  destruct (stod s3); cbn [bind e_mjd e_xPole e_yPole e_ut1 e_lod e_tai]; [|reflexivity].
  destruct (stod s4); cbn [bind e_mjd e_xPole e_yPole e_ut1 e_lod e_tai]; [|reflexivity].
  destruct (stod s9); cbn [bind e_mjd e_xPole e_yPole e_ut1 e_lod e_tai]; [|reflexivity].
  apply (readColumns_tail r 0).
Qed.

Definition num (s : string) : R := match stod s with Some x => x | None => 0 end.

(** Lines given by their fields. *)
Lemma readRows_ok : forall lines t,
  Forall (fun l => (11 <= List.length (getlines comma l))%nat) lines ->
  let rows := map (getlines comma) lines in
  (exists t', readRows stod lines t = Ret t' /\
     numbers stod (column 1 rows) (map num (column 1 rows)) /\ e_mjd t' = e_mjd t ++ map num (column 1 rows) /\
     numbers stod (column 2 rows) (map num (column 2 rows)) /\ e_xPole t' = e_xPole t ++ map num (column 2 rows) /\
     numbers stod (column 3 rows) (map num (column 3 rows)) /\ e_yPole t' = e_yPole t ++ map num (column 3 rows) /\
     numbers stod (column 4 rows) (map num (column 4 rows)) /\ e_ut1 t' = e_ut1 t ++ map num (column 4 rows) /\
     numbers stod (column 5 rows) (map num (column 5 rows)) /\ e_lod t' = e_lod t ++ map num (column 5 rows) /\
     numbers stod (column 10 rows) (map num (column 10 rows)) /\ e_tai t' = e_tai t ++ map num (column 10 rows)) \/
  (readRows stod lines t = Throw /\
   exists r k, In r rows /\ In k [1; 2; 3; 4; 5; 10]%nat /\ stod (nth k r ""%string) = None).
Proof.
  induction lines as [|l lines IH]; intros t HF rows.
  - left. exists t. unfold rows, numbers. cbn. rewrite !app_nil_r. repeat split.
  - inversion HF; subst. cbn [readRows]. rewrite readColumns_row by auto.
    unfold rows. cbn [map]. unfold row_numbers. set (r := getlines comma l) in *.
    destruct (stod (nth 1 r ""%string)) as [a|] eqn:E1;
      [|right; split; [reflexivity|exists r, 1%nat; cbn; auto 10]].
    destruct (stod (nth 2 r ""%string)) as [b|] eqn:E2;
      [|right; split; [reflexivity|exists r, 2%nat; cbn; auto 10]].
    destruct (stod (nth 3 r ""%string)) as [c|] eqn:E3;
      [|right; split; [reflexivity|exists r, 3%nat; cbn; auto 10]].
    destruct (stod (nth 4 r ""%string)) as [d|] eqn:E4;
      [|right; split; [reflexivity|exists r, 4%nat; cbn; auto 10]].
    destruct (stod (nth 5 r ""%string)) as [e|] eqn:E5;
      [|right; split; [reflexivity|exists r, 5%nat; cbn; auto 10]].
    destruct (stod (nth 10 r ""%string)) as [f|] eqn:E6;
      [|right; split; [reflexivity|exists r, 10%nat; cbn; auto 10]].
    cbn [bind]. destruct (IH (app_row t a b c d e f) H2)
      as [(t' & R1 & N1 & A1 & N2 & A2 & N3 & A3 & N4 & A4 & N5 & A5 & N6 & A6)|(R1 & r' & k & I1 & I2 & I3)].
    + left. exists t'. unfold numbers, column, num in *. cbn [map] in *.
      rewrite E1, E2, E3, E4, E5, E6, N1, N2, N3, N4, N5, N6, A1, A2, A3, A4, A5, A6.
      cbn [app_row e_mjd e_xPole e_yPole e_ut1 e_lod e_tai]. rewrite <- !app_assoc. repeat split; auto.
    + right. split; [exact R1|]. exists r', k. split; [right; exact I1|]. auto.
Qed.

(** ** Calls *)
Lemma readRows_outcome : forall lines t, (exists t', readRows stod lines t = Ret t') \/ readRows stod lines t = Throw.
Proof.
  assert (C : forall r n t, (exists t', readColumns stod n r t = Ret t') \/ readColumns stod n r t = Throw).
  { induction r as [|x r IH]; intros n t; cbn [readColumns]; [eauto|]. unfold stodc.
    destruct (stod x);
    do 11 (destruct n as [|n]; [cbn [bind]; try apply IH; now right|]); cbn [bind]; apply IH. }
  induction lines as [|l lines IH]; intros t; cbn [readRows]; [eauto|].
  destruct (C (getlines comma l) 0%nat t) as [[t' ->]| ->]; cbn [bind]; auto.
Qed.

Lemma getEops_cases fs name st :
  (fi_in (fs name) = false /\ getEops stod fs name st = (Ret false, st)) \/
  (fi_in (fs name) = true /\ getEops stod fs name st = (Throw, st)) \/
  (fi_in (fs name) = true /\ exists t, getEops stod fs name st = (Ret true, RS true t)).
Proof.
  unfold getEops. destruct (fi_in (fs name)); cbn [negb]; [|now left]. right.
  match goal with |- context [readRows stod ?l ?t] => destruct (readRows_outcome l t) as [[t' ->]| ->] end; eauto.
Qed.

Lemma getEops_state_independent fs name st st' t :
  getEops stod fs name st = (Ret true, t) -> getEops stod fs name st' = (Ret true, t).
Proof.
  unfold getEops. destruct (fi_in (fs name)); cbn [negb]; [|discriminate].
  match goal with |- context [readRows stod ?l ?t] => destruct (readRows_outcome l t) as [[t' ->]| ->] end;
  [auto|discriminate].
Qed.

Lemma runEops_snoc calls c st :
  runEops stod (calls ++ [c]) st = snd (getEops stod (fst c) (snd c) (runEops stod calls st)).
Proof. unfold runEops. rewrite fold_left_app. reflexivity. Qed.

Lemma snoc_inv {A} (l : list A) c pre x post : l ++ [c] = pre ++ x :: post ->
  (pre = l /\ x = c /\ post = []) \/ exists q, post = q ++ [c] /\ l = pre ++ x :: q.
Proof.
  intros X. destruct post as [|z post].
  - left. apply app_inj_tail in X as [-> ->]. auto.
  - right. destruct (exists_last (l := z :: post) ltac:(discriminate)) as (q & w & Q). rewrite Q in X |- *.
    change (pre ++ x :: q ++ [w]) with (pre ++ (x :: q) ++ [w]) in X. rewrite app_assoc in X.
    apply app_inj_tail in X as [-> ->]. eauto.
Qed.

Lemma eops_history calls : forall st,
  (exists pre c post, calls = pre ++ c :: post /\
     getEops stod (fst c) (snd c) (runEops stod pre st) = (Ret true, runEops stod calls st) /\
     forall post1 c' post2, post = post1 ++ c' :: post2 ->
       fst (getEops stod (fst c') (snd c') (runEops stod (pre ++ c :: post1) st)) <> Ret true) \/
  (runEops stod calls st = st /\
   forall pre c post, calls = pre ++ c :: post ->
     fst (getEops stod (fst c) (snd c) (runEops stod pre st)) <> Ret true).
Proof.
  induction calls as [|c calls IH] using rev_ind; intros st.
  - right. split; [reflexivity|]. intros [|] ? ? X; discriminate.
  - rewrite runEops_snoc.
    destruct (getEops_cases (fst c) (snd c) (runEops stod calls st)) as [[F E]|[[F E]|[F [t E]]]].
    3: { left. exists calls, c, []. split; [reflexivity|]. rewrite E. split; [reflexivity|].
         intros [|] ? ? X; discriminate. }
    all: assert (NE : fst (getEops stod (fst c) (snd c) (runEops stod calls st)) <> Ret true) by (rewrite E; discriminate).
    all: rewrite E; cbn [snd].
    all: destruct (IH st) as [(pre & c0 & post & E1 & E2 & E3)|[E2 E3]].
    1,3: left; exists pre, c0, (post ++ [c]); split; [rewrite E1, <- app_assoc; reflexivity|];
      (split; [exact E2|]); intros post1 c' post2 X;
      apply snoc_inv in X as [(-> & -> & ->)|(q & -> & ->)];
      [rewrite <- E1; exact NE|now apply (E3 post1 c' q)].
    all: right; split; [exact E2|]; intros pre c' post X;
      apply snoc_inv in X as [(-> & -> & ->)|(q & -> & X)]; [exact NE|now apply (E3 pre c' q)].
Qed.

Lemma map_good_rows rows : Forall good_row rows -> map (getlines comma) (map join rows) = rows.
Proof.
  induction rows as [|r rows IH]; intros H; [reflexivity|]. inversion H; subst. cbn [map].
  now rewrite good_row_fields, IH.
Qed.

Lemma eops_load fs name st header rows :
  fi_in (fs name) = true -> fi_inout (fs name) = true -> fi_content (fs name) = csv header rows ->
  ~ In (ascii_of_nat 10) (chars header) -> Forall good_row rows ->
  (exists t, getEops stod fs name st = (Ret true, RS true t) /\
     numbers stod (column 1 rows) (e_mjd t) /\ numbers stod (column 2 rows) (e_xPole t) /\
     numbers stod (column 3 rows) (e_yPole t) /\ numbers stod (column 4 rows) (e_ut1 t) /\
     numbers stod (column 5 rows) (e_lod t) /\ numbers stod (column 10 rows) (e_tai t)) \/
  (getEops stod fs name st = (Throw, st) /\
   exists r k, In r rows /\ In k [1; 2; 3; 4; 5; 10]%nat /\ stod (nth k r ""%string) = None).
Proof.
  intros H1 H2 H3 Hh Hr. unfold getEops. rewrite H1, H2, H3. cbn [negb]. rewrite csv_lines by auto.
  assert (F : Forall (fun l => (11 <= List.length (getlines comma l))%nat) (map join rows)).
  { apply Forall_forall. intros l X. apply in_map_iff in X as (r & <- & X).
    rewrite Forall_forall in Hr. rewrite good_row_fields by auto. apply (Hr r X). }
  pose proof (readRows_ok (map join rows) (Eops [] [] [] [] [] []) F) as C. cbv zeta in C.
  rewrite map_good_rows in C by auto.
  destruct C as [(t' & -> & N1 & A1 & N2 & A2 & N3 & A3 & N4 & A4 & N5 & A5 & N6 & A6)|(-> & X)].
  - left. exists t'. split; [reflexivity|]. cbn in A1, A2, A3, A4, A5, A6.
    rewrite A1, A2, A3, A4, A5, A6. auto 10.
  - right. auto.
Qed.

Lemma numbers_length s l : numbers stod s l -> List.length l = List.length s.
Proof. intros H. apply (f_equal (@List.length _)) in H. rewrite !map_length in H. auto. Qed.

(** Any text whose data lines all have eleven fields. *)
Lemma eops_rectangular fs name st t :
  Forall (fun l => (11 <= List.length (getlines comma l))%nat) (tl (getlines newline (fi_content (fs name)))) ->
  getEops stod fs name st = (Ret true, RS true t) -> rectangular (List.length (e_mjd t)) t.
Proof.
  intros F. unfold getEops. destruct (fi_in (fs name)); cbn [negb]; [|discriminate].
  assert (F' : Forall (fun l => (11 <= List.length (getlines comma l))%nat)
    (if fi_inout (fs name) then tl (getlines newline (fi_content (fs name))) else [])).
  { destruct (fi_inout (fs name)); auto. }
  destruct (readRows_ok _ (Eops [] [] [] [] [] []) F')
    as [(t' & -> & N1 & A1 & N2 & A2 & N3 & A3 & N4 & A4 & N5 & A5 & N6 & A6)|(-> & _)]; [|discriminate].
  intros X. inversion X; subst t'. unfold rectangular. cbn in A1, A2, A3, A4, A5, A6.
  rewrite A1, A2, A3, A4, A5, A6. unfold column. rewrite !map_length. repeat split.
Qed.

Lemma eops_read_only fs name st : fi_in (fs name) = true -> fi_inout (fs name) = false ->
  getEops stod fs name st = (Ret true, RS true (Eops [] [] [] [] [] [])).
Proof. intros H1 H2. unfold getEops. rewrite H1, H2. reflexivity. Qed.
End Stod.

(** ** Lookup *)
Lemma findIndex_none x l : findIndex x l = None <-> ~ In x l.
Proof.
  induction l as [|y l IH]; cbn; [tauto|]. destruct (Req_EM_T y x) as [E|E].
  - split; [discriminate|]. intros H. exfalso. apply H. now left.
  - destruct (findIndex x l); cbn.
    + split; [discriminate|]. intros H. exfalso. destruct IH as [_ IH].
      assert (Z : ~ In x l) by tauto. specialize (IH Z). discriminate.
    + split; auto. intros _ [X|X]; [auto|]. now apply IH.
Qed.

Lemma findIndex_some x : forall l i, findIndex x l = Some i <->
  ((i < List.length l)%nat /\ nth i l 0 = x /\ forall k, (k < i)%nat -> nth k l 0 <> x).
Proof.
  induction l as [|y l IH]; intros i; cbn [findIndex].
  - split; [discriminate|]. cbn. intros [X _]. lia.
  - destruct (Req_EM_T y x) as [E|E].
    + split.
      * intros X. inversion X; subst. cbn. split; [lia|]. split; [reflexivity|]. intros k K. lia.
      * intros (H1 & H2 & H3). destruct i; [reflexivity|]. exfalso. apply (H3 0%nat); [lia|]. exact E.
    + destruct (findIndex x l) as [j|] eqn:F; cbn [option_map].
      * split.
        -- intros X. inversion X; subst. destruct (proj1 (IH j) eq_refl) as (H1 & H2 & H3).
           cbn. split; [lia|]. split; [exact H2|]. intros [|k] K; [exact E|]. apply H3. lia.
        -- intros (H1 & H2 & H3). destruct i; [cbn in H2; congruence|].
           assert (X : Some j = Some i); [|congruence]. apply IH.
           split; [cbn in H1; lia|]. split; [exact H2|]. intros k K. apply (H3 (S k)). lia.
      * split; [discriminate|]. intros (H1 & H2 & H3). exfalso.
        destruct i; [cbn in H2; congruence|]. cbn in H1, H2.
        apply findIndex_none in F. apply F. rewrite <- H2. apply nth_In. lia.
Qed.

Lemma at_ok l i : (i < List.length l)%nat -> at_ l i = Ret (nth i l 0).
Proof. intros H. unfold at_. rewrite (nth_error_nth' l 0 H). reflexivity. Qed.

Lemma floor_frac x : 0 <= x - Rfloor x < 1.
Proof. unfold Rfloor. pose proof (Zfloor_lb x). pose proof (Zfloor_ub x). lra. Qed.

Lemma eop_reject st mjd out : eopsSet st = false \/ ~ In (Rfloor mjd) (e_mjd (eops st)) ->
  getCurrentEop st mjd out = Ret (false, out).
Proof.
  intros H. unfold getCurrentEop. destruct (eopsSet st) eqn:S; cbn [negb]; [|reflexivity].
  destruct H as [H|H]; [discriminate|]. now rewrite (proj2 (findIndex_none _ _) H).
Qed.

Lemma eop_lookup st n mjd out i : eopsSet st = true -> rectangular n (eops st) ->
  first_row (eops st) (Rfloor mjd) i ->
  let t := eops st in
  let f := mjd - Rfloor mjd in
  let j := if Nat.eqb (S i) n then i else S i in
  0 <= f < 1 /\ (j < n)%nat /\
  getCurrentEop st mjd out = Ret (true,
    EO (lerp f (nth i (e_xPole t) 0) (nth j (e_xPole t) 0) * arcsec)
       (lerp f (nth i (e_yPole t) 0) (nth j (e_yPole t) 0) * arcsec)
       (lerp f (nth i (e_ut1 t) 0) (nth j (e_ut1 t) 0))
       (lerp f (nth i (e_lod t) 0) (nth j (e_lod t) 0))
       (nth i (e_tai t) 0)).
Proof.
  intros S (L1 & L2 & L3 & L4 & L5 & L6) F t f j. pose proof F as (F1 & F2 & F3).
  rewrite L1 in F1. assert (Hj : (j < n)%nat) by (unfold j; destruct (Nat.eqb_spec (Datatypes.S i) n); lia).
  split; [apply floor_frac|]. split; [exact Hj|].
  unfold getCurrentEop. rewrite S. cbn [negb].
  rewrite (proj2 (findIndex_some _ _ i) F). fold t.
  rewrite !at_ok by (unfold t; lia). cbn [bind].
  replace (if Nat.eqb i (List.length (e_mjd t) - 1) then i else Datatypes.S i) with j.
  - rewrite !at_ok by (unfold t; lia). cbn [bind]. unfold lerp, arcsec, Arcs. fold f.
    pose proof PI_neq0. do 2 f_equal. f_equal; try ring; field; auto.
  - unfold j, t. rewrite L1. destruct (Nat.eqb_spec (Datatypes.S i) n), (Nat.eqb_spec i (n - 1)); auto; lia.
Qed.

Lemma eop_never_undef st n mjd out : rectangular n (eops st) ->
  exists ok o, getCurrentEop st mjd out = Ret (ok, o).
Proof.
  intros Rc. destruct (eopsSet st) eqn:S; [|rewrite eop_reject by auto; eauto].
  destruct (findIndex (Rfloor mjd) (e_mjd (eops st))) as [i|] eqn:F.
  - apply findIndex_some in F. destruct (eop_lookup st n mjd out i S Rc F) as (_ & _ & ->). eauto.
  - rewrite eop_reject by (right; now apply findIndex_none). eauto.
Qed.

(** ** Consecutive days *)
Lemma lerp_between f a b : 0 <= f < 1 -> Rmin a b <= lerp f a b <= Rmax a b.
Proof.
  intros H. unfold lerp, Rmin, Rmax. destruct (Rle_dec a b).
  - split; nra.
  - split; nra.
Qed.

Lemma Rfloor_IZR_plus d f : 0 <= f < 1 -> Rfloor (IZR d + f) = IZR d.
Proof. intros H. unfold Rfloor. f_equal. apply Zfloor_imp. rewrite plus_IZR. lra. Qed.

(** If days [d] and [d+1] have consecutive rows, the lookup on day [d] is the
    straight line between the lookups at the two midnights. *)
Lemma eop_piecewise_linear st n d i f out out' out'' :
  eopsSet st = true -> rectangular n (eops st) -> 0 <= f < 1 ->
  first_row (eops st) (IZR d) i -> first_row (eops st) (IZR (d + 1)) (S i) ->
  exists a b, getCurrentEop st (IZR d) out = Ret (true, a) /\ getCurrentEop st (IZR (d + 1)) out' = Ret (true, b) /\
    getCurrentEop st (IZR d + f) out'' = Ret (true,
      EO (lerp f (o_xPole a) (o_xPole b)) (lerp f (o_yPole a) (o_yPole b)) (lerp f (o_ut1 a) (o_ut1 b))
         (lerp f (o_lod a) (o_lod b)) (o_tai a)).
Proof.
  intros S Rc Hf Fi Fj.
  assert (D0 : Rfloor (IZR d) = IZR d) by (rewrite <- (Rplus_0_r (IZR d)) at 1; apply Rfloor_IZR_plus; lra).
  assert (D1 : Rfloor (IZR (d + 1)) = IZR (d + 1)) by (rewrite <- (Rplus_0_r (IZR (d + 1))) at 1; apply Rfloor_IZR_plus; lra).
  assert (Df : Rfloor (IZR d + f) = IZR d) by now apply Rfloor_IZR_plus.
  pose proof (eop_lookup st n (IZR d) out i S Rc) as E0. rewrite D0 in E0. destruct (E0 Fi) as (_ & _ & E0').
  pose proof (eop_lookup st n (IZR (d + 1)) out' (Datatypes.S i) S Rc) as E1. rewrite D1 in E1.
  destruct (E1 Fj) as (_ & _ & E1').
  pose proof (eop_lookup st n (IZR d + f) out'' i S Rc) as E2. rewrite Df in E2. destruct (E2 Fi) as (_ & _ & E2').
  rewrite E0', E1', E2'. do 2 eexists. split; [reflexivity|]. split; [reflexivity|]. cbn [o_xPole o_yPole o_ut1 o_lod o_tai].
  assert (N : Nat.eqb (Datatypes.S i) n = false).
  { apply Nat.eqb_neq. destruct Fj as (X & _). destruct Rc as (Y & _). lia. }
  rewrite N. unfold lerp. do 2 f_equal. f_equal; ring.
Qed.

(** UT1 - TAI along the day: the straight line plus the leap second times the
    day fraction. *)
Lemma eop_leap_second st n d i f out out' out'' :
  eopsSet st = true -> rectangular n (eops st) -> 0 <= f < 1 ->
  first_row (eops st) (IZR d) i -> first_row (eops st) (IZR (d + 1)) (S i) ->
  exists a b c, getCurrentEop st (IZR d) out = Ret (true, a) /\ getCurrentEop st (IZR (d + 1)) out' = Ret (true, b) /\
    getCurrentEop st (IZR d + f) out'' = Ret (true, c) /\
    o_ut1 c - o_tai c = lerp f (o_ut1 a - o_tai a) (o_ut1 b - o_tai b) + f * (o_tai b - o_tai a).
Proof.
  intros S Rc Hf Fi Fj. destruct (eop_piecewise_linear st n d i f out out' out'' S Rc Hf Fi Fj) as (a & b & E1 & E2 & E3).
  exists a, b. eexists. split; [exact E1|]. split; [exact E2|]. split; [exact E3|]. cbn. unfold lerp. ring.
Qed.
