(** Theorem C149: the rotation between J2000 and the Earth-fixed frame in
    double arithmetic. *)
From Coq Require Import Reals ZArith List String Lra Lia.
From Verif Require Import Base BaseVec SpecRot SpecCalendar SpecEarth SpecJ2k ModelDate ModelEop ModelJ2k ModelJ2kFloat ModelStrapdownFloat SpecFloatOps SpecJ2kFloat ProofVec ProofMjd
  ProofJ2k ProofStrapdownFloat ProofStrapdownFloat2 ProofJ2kFloat ProofJ2kFloat4 ProofJ2kFloat5.
Import ListNotations.
Open Scope R_scope.

(** C149: for a date between 1810 and 2190 and Earth orientation parameters of
    ordinary size, when the function run with exact numbers returns a rotation
    then the function run in double arithmetic returns a matrix that maps every
    vector within 1e-10 of its length of the same place. *)
Theorem C149_rounding_error : forall F st d h mi s file M A, float_ok F -> frnd F = rnd64 -> eop_sane (eops st) -> date_ok d h mi s ->
  computeRJ2k2Ecef st [IZR (year d); IZR (month d); IZR (day d); h; mi; s] file M = Ret (true, A) ->
  exists A', computeRJ2k2Ecef_f F st [IZR (year d); IZR (month d); IZR (day d); h; mi; s] file M = Ret (true, A') /\
    close_to (/ 10000000000) A' (mvmul A).
Proof.
  intros F st d h mi s file M A HF HR HS HD E.
  destruct (whole_close F HF HR st d h mi s HS HD) as [(B & B' & C & K)|K].
  - destruct (K file M) as (K1 & _ & K3 & _). rewrite E in K1. injection K1 as <-. exists B'. now split.
  - destruct (K file M) as [(K1 & _)|(K1 & _)]; rewrite E in K1; discriminate.
Qed.
Print Assumptions C149_rounding_error.
(** The same for the opposite direction. *)
Theorem C149_rounding_error_back : forall F st d h mi s file M A, float_ok F -> frnd F = rnd64 -> eop_sane (eops st) -> date_ok d h mi s ->
  computeREcef2J2k st [IZR (year d); IZR (month d); IZR (day d); h; mi; s] file M = Ret (true, A) ->
  exists A', computeREcef2J2k_f F st [IZR (year d); IZR (month d); IZR (day d); h; mi; s] file M = Ret (true, A') /\
    close_to (/ 10000000000) A' (mvmul A).
Proof.
  intros F st d h mi s file M A HF HR HS HD E.
  destruct (whole_close F HF HR st d h mi s HS HD) as [(B & B' & C & K)|K].
  - destruct (K file M) as (_ & K2 & _ & K4). rewrite E in K2. injection K2 as ->. exists (mtr B'). split; [exact K4|].
    apply close_mtr; [lra|exact C].
  - destruct (K file M) as [(_ & K1 & _)|(_ & K1 & _)]; rewrite E in K1; discriminate.
Qed.
Print Assumptions C149_rounding_error_back.
(** Rounding does not change success or failure, nor whether the table is read
    out of range. *)
Theorem C149_same_outcome : forall F st d h mi s file M, float_ok F -> frnd F = rnd64 -> eop_sane (eops st) -> date_ok d h mi s ->
  let v := [IZR (year d); IZR (month d); IZR (day d); h; mi; s] in
  (computeRJ2k2Ecef st v file M = Ret (false, M) <-> computeRJ2k2Ecef_f F st v file M = Ret (false, M)) /\
  (computeRJ2k2Ecef st v file M = Undef <-> computeRJ2k2Ecef_f F st v file M = Undef) /\
  ((exists A, computeRJ2k2Ecef st v file M = Ret (true, A)) <-> exists A', computeRJ2k2Ecef_f F st v file M = Ret (true, A')).
Proof.
  intros F st d h mi s file M HF HR HS HD v.
  destruct (whole_close F HF HR st d h mi s HS HD) as [(B & B' & C & K)|K]; fold v in K.
  - destruct (K file M) as (-> & _ & -> & _). repeat split; intros; try discriminate; eauto.
  - destruct (K file M) as [(-> & _ & -> & _)|(-> & _ & -> & _)]; repeat split; intros; try discriminate; auto;
      destruct H as (A & H); discriminate.
Qed.
Print Assumptions C149_same_outcome.
(** For every date and every table, of any size: a matrix that is returned is
    within 4e-13 of a proper rotation. *)
Theorem C149_nearly_rotation : forall F st v file M A, float_ok F ->
  computeRJ2k2Ecef_f F st v file M = Ret (true, A) \/ computeREcef2J2k_f F st v file M = Ret (true, A) ->
  exists B, is_rotation B /\ close_to (4 / 10000000000000) A (mvmul B).
Proof. exact nearly_rotation. Qed.
Print Assumptions C149_nearly_rotation.
(** Without rounding this is the model of ModelJ2k.v. *)
Theorem C149_exact_arithmetic : forall st v file M, computeRJ2k2Ecef_f exact_ops st v file M = computeRJ2k2Ecef st v file M /\
  computeREcef2J2k_f exact_ops st v file M = computeREcef2J2k st v file M.
Proof. exact j2k_exact. Qed.
Print Assumptions C149_exact_arithmetic.

(** 12:34:56.789 on 1 January 2024, with the parameters of that day and the next:
    a point on the equator comes out within 0.64 mm. *)
Definition st2024 : RotState := RS true
  (Eops [60310; 60311] [0.136; 0.135] [0.202; 0.203] [0.0087; 0.0083] [0.0005; 0.0006] [37; 37]).
Example C149_case : exists A A',
  computeRJ2k2Ecef st2024 [2024; 1; 1; 12; 34; 56.789] EmptyString m3zero = Ret (true, A) /\
  computeRJ2k2Ecef_f binary64_ops st2024 [2024; 1; 1; 12; 34; 56.789] EmptyString m3zero = Ret (true, A') /\
  norm (vsub (mvmul A' (V3 6378137 0 0)) (mvmul A (V3 6378137 0 0))) <= 0.00064.
Proof.
  assert (V : valid_date (Date 2024 1 1)) by (unfold valid_date; cbn; lia).
  assert (D : date_ok (Date 2024 1 1) 12 34 56.789) by (split; [exact V|]; cbn [year]; split; [lia|]; repeat split; lra).
  assert (S : eop_sane (eops st2024)).
  { unfold eop_sane. cbn [eops st2024 e_xPole e_yPole e_ut1 e_tai].
    split; [|split; [|split]]; repeat (apply Forall_cons; [apply Rabs_le; lra|]); apply Forall_nil. }
  destruct (whole_close binary64_ops binary64_ok eq_refl st2024 (Date 2024 1 1) 12 34 56.789 S D) as [(A & A' & C & K)|K].
  - destruct (K EmptyString m3zero) as (K1 & _ & K3 & _). exists A, A'. split; [exact K1|]. split; [exact K3|].
    eapply Rle_trans; [apply C|]. unfold norm, dot. cbn [vx vy vz]. replace (6378137 * 6378137 + 0 * 0 + 0 * 0) with (Rsqr 6378137) by (unfold Rsqr; ring).
    rewrite sqrt_Rsqr; lra.
  - exfalso. destruct (day_close (Date 2024 1 1) 12 34 56.789 D) as (x & _ & Ex & _).
    assert (HFd : fields_ok 1 1 12 34 56.789) by (unfold fields_ok; repeat split; lra || lia).
    pose proof (conv_exact 2024 1 1 12 34 56.789 [] 0 HFd) as E. change (mjdZ 2024 1 1) with 60310%Z in E.
    set (y := 60310 + (12 * 3600 + 34 * 60 + 56.789) / 86400) in *.
    assert (G : exists o, getCurrentEop st2024 y (EO 0 0 0 0 0) = Ret (true, o)).
    { unfold getCurrentEop. cbn [eopsSet st2024 negb eops e_mjd]. assert (FL : Rfloor y = 60310).
      { unfold Rfloor. f_equal. apply Flocq.Core.Raux.Zfloor_imp. unfold y. rewrite plus_IZR. lra. }
      rewrite FL. cbn [findIndex]. destruct (Req_EM_T 60310 60310); [|lra]. cbn. eauto. }
    destruct G as (o & G). destruct (exact_frame st2024 y o G [2024; 1; 1; 12; 34; 56.789] eq_refl E) as (A & _ & EA). destruct (EA EmptyString m3zero) as (E1 & _).
    destruct (K EmptyString m3zero) as [(K1 & _)|(K1 & _)]; cbn [year month day] in K1; rewrite E1 in K1; discriminate.
Qed.
Example C149_float : float_ok binary64_ops /\ frnd binary64_ops = rnd64.
Proof. split; [exact binary64_ok|reflexivity]. Qed.
