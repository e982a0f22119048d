(** Theorems C36-C39 and C77: the Earth-orientation table. *)
From Coq Require Import Reals ZArith List String Ascii Lra Lia.
From Verif Require Import Base BaseVec ModelDate ModelEop ModelJ2k SpecEop ProofEop ProofJ2k.
Import ListNotations.
Open Scope R_scope.

(** A concrete std::stod for the examples: one decimal digit. *)
Definition stod1 (s : string) : option R :=
  match s with
  | String c EmptyString =>
      let n := nat_of_ascii c in
      if andb (48 <=? n)%nat (n <=? 57)%nat then Some (IZR (Z.of_nat n - 48)) else None
  | _ => None
  end.
Definition onefile (text : string) (rw : bool) : fileSystem :=
  fun name => if String.eqb name "f" then FI true rw text else FI false false "".
Definition row1 : list string := ["d"; "5"; "1"; "2"; "3"; "4"; ""; ""; ""; ""; "7"]%string.
Definition row2 : list string := ["d"; "6"; "3"; "4"; "5"; "6"; ""; ""; ""; ""; "8"]%string.
Definition text2 : string := csv "header" [row1; row2].
Definition tab2 : EopTable := Eops [5; 6] [1; 3] [2; 4] [3; 5] [4; 6] [7; 8].

(** C36: the state after any history is the one left by the last call that
    returned true, or the initial one when none did; a call that returns true
    does not depend on the state before it. *)
Theorem C36_state_is_that_of_last_success : forall stod calls st,
  (exists pre c post, calls = pre ++ c :: post /\
     getEops stod (fst c) (snd c) (runEops stod pre st) = (Ret true, runEops stod calls st) /\
     forall post1 c' post2, post = post1 ++ c' :: post2 ->
       fst (getEops stod (fst c') (snd c') (runEops stod (pre ++ c :: post1) st)) <> Ret true) \/
  (runEops stod calls st = st /\
   forall pre c post, calls = pre ++ c :: post ->
     fst (getEops stod (fst c) (snd c) (runEops stod pre st)) <> Ret true).
Proof. exact eops_history. Qed.
Print Assumptions C36_state_is_that_of_last_success.
Theorem C36_outcomes : forall stod fs name st,
  (fi_in (fs name) = false /\ getEops stod fs name st = (Ret false, st)) \/
  (fi_in (fs name) = true /\ getEops stod fs name st = (Throw, st)) \/
  (fi_in (fs name) = true /\ exists t, getEops stod fs name st = (Ret true, RS true t)).
Proof. exact getEops_cases. Qed.
Print Assumptions C36_outcomes.
Theorem C36_success_ignores_old_state : forall stod fs name st st' t,
  getEops stod fs name st = (Ret true, t) -> getEops stod fs name st' = (Ret true, t).
Proof. exact getEops_state_independent. Qed.
Print Assumptions C36_success_ignores_old_state.
(** A readable and writable file is loaded row by row: columns 1-5 and 10. *)
Theorem C36_loads_the_rows : forall stod fs name st header rows,
  fi_in (fs name) = true -> fi_inout (fs name) = true -> fi_content (fs name) = csv header rows ->
  ~ In (ascii_of_nat 10) (chars header) -> Forall good_row rows ->
  (exists t, getEops stod fs name st = (Ret true, RS true t) /\
     numbers stod (column 1 rows) (e_mjd t) /\ numbers stod (column 2 rows) (e_xPole t) /\
     numbers stod (column 3 rows) (e_yPole t) /\ numbers stod (column 4 rows) (e_ut1 t) /\
     numbers stod (column 5 rows) (e_lod t) /\ numbers stod (column 10 rows) (e_tai t)) \/
  (getEops stod fs name st = (Throw, st) /\
   exists r k, In r rows /\ In k [1; 2; 3; 4; 5; 10]%nat /\ stod (nth k r ""%string) = None).
Proof. exact eops_load. Qed.
Print Assumptions C36_loads_the_rows.
(** A file that can be read but not written: success with an empty table. *)
Theorem C36_read_only_file_loaded_refuted : forall stod fs name st,
  fi_in (fs name) = true -> fi_inout (fs name) = false ->
  getEops stod fs name st = (Ret true, RS true (Eops [] [] [] [] [] [])).
Proof. exact eops_read_only. Qed.
Print Assumptions C36_read_only_file_loaded_refuted.
Example C36_case : Forall good_row [row1; row2] /\
  getEops stod1 (onefile text2 true) "f" newRotations = (Ret true, RS true tab2) /\
  getEops stod1 (onefile text2 false) "f" (RS true tab2) = (Ret true, RS true (Eops [] [] [] [] [] [])) /\
  getEops stod1 (onefile text2 true) "g" (RS true tab2) = (Ret false, RS true tab2).
Proof.
  repeat split; try (vm_compute; reflexivity).
  repeat constructor; cbn; try discriminate; intros H; repeat (destruct H as [H|H]; try discriminate H); auto.
Qed.

(** C37 *)
Theorem C37_eleven_fields_give_rectangular_table : forall stod fs name st t,
  Forall (fun l => (11 <= List.length (getlines comma l))%nat) (tl (getlines newline (fi_content (fs name)))) ->
  getEops stod fs name st = (Ret true, RS true t) -> rectangular (List.length (e_mjd t)) t.
Proof. exact eops_rectangular. Qed.
Print Assumptions C37_eleven_fields_give_rectangular_table.
Theorem C37_rectangular_lookup_in_bounds : forall st n mjd out, rectangular n (eops st) ->
  exists ok o, getCurrentEop st mjd out = Ret (ok, o).
Proof. exact eop_never_undef. Qed.
Print Assumptions C37_rectangular_lookup_in_bounds.
(** Short lines: a read past the end, and a TAI-UTC taken from another day's row. *)
Theorem C37_short_line_reads_past_the_end : exists text st,
  getEops stod1 (onefile text true) "f" newRotations = (Ret true, st) /\
  forall out, getCurrentEop st 6 out = Undef.
Proof.
  exists (csv "header" [row1; ["d"; "6"; "1"]%string]), (RS true (Eops [5; 6] [1; 1] [2] [3] [4] [7])). split; [vm_compute; reflexivity|].
  intros out. unfold getCurrentEop. cbn [negb eopsSet eops e_mjd].
  replace (Rfloor 6) with 6 by (unfold Rfloor; now rewrite (Raux.Zfloor_IZR 6)).
  cbn -[Req_EM_T]. destruct (Req_EM_T 5 6); [lra|]. cbn -[Req_EM_T]. destruct (Req_EM_T 6 6); [|lra]. reflexivity.
Qed.
Print Assumptions C37_short_line_reads_past_the_end.
Theorem C37_short_line_uses_another_row : exists text st o,
  text = csv "header" [["d"; "5"; "1"; "2"; "3"; "4"]%string; row2] /\
  getEops stod1 (onefile text true) "f" newRotations = (Ret true, st) /\
  getCurrentEop st 5 (EO 0 0 0 0 0) = Ret (true, o) /\ o_tai o = 8.
Proof.
  exists (csv "header" [["d"; "5"; "1"; "2"; "3"; "4"]%string; row2]), (RS true (Eops [5; 6] [1; 3] [2; 4] [3; 5] [4; 6] [8])).
  eexists. split; [reflexivity|]. split; [vm_compute; reflexivity|].
  unfold getCurrentEop. cbn [negb eopsSet eops e_mjd].
  replace (Rfloor 5) with 5 by (unfold Rfloor; now rewrite (Raux.Zfloor_IZR 5)).
  cbn -[Req_EM_T]. destruct (Req_EM_T 5 5); [|lra]. cbn. split; reflexivity.
Qed.
Print Assumptions C37_short_line_uses_another_row.

(** C38 *)
Theorem C38_missing_day_rejected : forall st mjd out,
  eopsSet st = false \/ ~ In (Rfloor mjd) (e_mjd (eops st)) -> getCurrentEop st mjd out = Ret (false, out).
Proof. exact eop_reject. Qed.
Print Assumptions C38_missing_day_rejected.
(** Row [i] is the first one for the date's day; [j] the row after it, or [i]
    itself in the last row. *)
Theorem C38_linear_interpolation : forall st n mjd out i, eopsSet st = true -> rectangular n (eops st) ->
  first_row (eops st) (Rfloor mjd) i ->
  let t := eops st in
  let f := mjd - Rfloor mjd in
  let j := if Nat.eqb (S i) n then i else S i in
  0 <= f < 1 /\ (j < n)%nat /\
  getCurrentEop st mjd out = Ret (true,
    EO (lerp f (nth i (e_xPole t) 0) (nth j (e_xPole t) 0) * arcsec)
       (lerp f (nth i (e_yPole t) 0) (nth j (e_yPole t) 0) * arcsec)
       (lerp f (nth i (e_ut1 t) 0) (nth j (e_ut1 t) 0))
       (lerp f (nth i (e_lod t) 0) (nth j (e_lod t) 0))
       (nth i (e_tai t) 0)).
Proof. exact eop_lookup. Qed.
Print Assumptions C38_linear_interpolation.
Theorem C38_between_the_rows : forall f a b, 0 <= f < 1 -> Rmin a b <= lerp f a b <= Rmax a b.
Proof. exact lerp_between. Qed.
Print Assumptions C38_between_the_rows.
Theorem C38_piecewise_linear_in_time : forall st n d i f out out' out'',
  eopsSet st = true -> rectangular n (eops st) -> 0 <= f < 1 ->
  first_row (eops st) (IZR d) i -> first_row (eops st) (IZR (d + 1)) (S i) ->
  exists a b, getCurrentEop st (IZR d) out = Ret (true, a) /\ getCurrentEop st (IZR (d + 1)) out' = Ret (true, b) /\
    getCurrentEop st (IZR d + f) out'' = Ret (true,
      EO (lerp f (o_xPole a) (o_xPole b)) (lerp f (o_yPole a) (o_yPole b)) (lerp f (o_ut1 a) (o_ut1 b))
         (lerp f (o_lod a) (o_lod b)) (o_tai a)).
Proof. exact eop_piecewise_linear. Qed.
Print Assumptions C38_piecewise_linear_in_time.
Lemma tab2_rows : rectangular 2 tab2 /\ first_row tab2 (IZR 5) 0 /\ first_row tab2 (IZR (5 + 1)) 1.
Proof.
  repeat split; cbn; try lia; try (intros k K; exfalso; lia).
  intros [|k] K; [cbn; lra|exfalso; lia].
Qed.
Example C38_case : exists o, getCurrentEop (RS true tab2) 5.5 (EO 0 0 0 0 0) = Ret (true, o) /\ o_ut1 o = 4 /\ o_tai o = 7.
Proof.
  destruct tab2_rows as (H1 & H2 & H3).
  destruct (C38_piecewise_linear_in_time (RS true tab2) 2 5 0 (1/2) (EO 0 0 0 0 0) (EO 0 0 0 0 0) (EO 0 0 0 0 0))
    as (a & b & Ea & Eb & Ec); auto; try lra.
  destruct (C38_linear_interpolation (RS true tab2) 2 5 (EO 0 0 0 0 0) 0) as (_ & _ & Fa); auto.
  { unfold Rfloor. now rewrite (Raux.Zfloor_IZR 5). }
  destruct (C38_linear_interpolation (RS true tab2) 2 (IZR (5 + 1)) (EO 0 0 0 0 0) 1) as (_ & _ & Fb); auto.
  { unfold Rfloor. now rewrite Raux.Zfloor_IZR. }
  rewrite Fa in Ea. rewrite Fb in Eb. inversion Ea; subst a. inversion Eb; subst b.
  replace 5.5 with (5 + 1/2) by lra. rewrite Ec. eexists. split; [reflexivity|].
  cbn -[Rfloor]. unfold lerp, Rfloor. rewrite (Raux.Zfloor_IZR 5), (Raux.Zfloor_IZR 6). split; lra.
Qed.

(** C39 *)
Theorem C39_eop_file_argument_ignored : forall st date f1 f2 M,
  computeRJ2k2Ecef st date f1 M = computeRJ2k2Ecef st date f2 M /\
  computeREcef2J2k st date f1 M = computeREcef2J2k st date f2 M.
Proof. intros. split; reflexivity. Qed.
Print Assumptions C39_eop_file_argument_ignored.
(** In particular naming a file does not load it. *)
Theorem C39_unloaded_table_always_rejected : forall date f M,
  (List.length date = 6)%nat ->
  computeRJ2k2Ecef newRotations date f M = Ret (false, M) /\ computeREcef2J2k newRotations date f M = Ret (false, M).
Proof. exact j2k_unloaded. Qed.
Print Assumptions C39_unloaded_table_always_rejected.

(** C77: on a day at whose end a leap second is inserted, UT1 - TAI is off the
    straight line between the two rows by the elapsed fraction of that second. *)
Theorem C77_ut1_across_leap_second_refuted : forall st n d i f out out' out'',
  eopsSet st = true -> rectangular n (eops st) -> 0 <= f < 1 ->
  first_row (eops st) (IZR d) i -> first_row (eops st) (IZR (d + 1)) (S i) ->
  exists a b c, getCurrentEop st (IZR d) out = Ret (true, a) /\ getCurrentEop st (IZR (d + 1)) out' = Ret (true, b) /\
    getCurrentEop st (IZR d + f) out'' = Ret (true, c) /\
    o_ut1 c - o_tai c = lerp f (o_ut1 a - o_tai a) (o_ut1 b - o_tai b) + f * (o_tai b - o_tai a).
Proof. exact eop_leap_second. Qed.
Print Assumptions C77_ut1_across_leap_second_refuted.
Example C77_case : eopsSet (RS true tab2) = true /\ rectangular 2 (eops (RS true tab2)) /\
  first_row tab2 (IZR 5) 0 /\ first_row tab2 (IZR (5 + 1)) 1.
Proof. split; [reflexivity|]. apply tab2_rows. Qed.
