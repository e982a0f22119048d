(** What success of the nonlinear least-squares loop means on IEEE doubles. *)
From Coq Require Import Reals ZArith List Bool Lia Arith Lra.
From Flocq Require Import Core IEEE754.BinarySingleNaN IEEE754.Binary IEEE754.Bits.
From Verif Require Import Base ModelDate ModelGuardFloat ModelNlsIeee SpecNlsIeee ProofNlsIeee.
Import ListNotations.
Local Open Scope nat_scope.
Local Open Scope outcome_scope.

(** ** The norm of a vector without NaN is not NaN *)
Definition good (x : binary64) : Prop := nan64 x = false /\ Binary.Bsign 53 1024 x = false.
Lemma ovf_nan x s : B2FF 53 1024 x = Binary.binary_overflow 53 1024 mode_NE s -> nan64 x = false /\ Binary.Bsign 53 1024 x = s.
Proof. destruct x; cbn; intros H; inversion H; auto. Qed.
Lemma good_B2R x : good x -> (0 <= Binary.B2R 53 1024 x)%R.
Proof.
  intros (N & S). destruct x as [s|s|s pl H|s m e H]; cbn in *; try apply Rle_refl. subst s. cbn.
  apply F2R_ge_0. cbn. lia.
Qed.
Lemma sq_good x : nan64 x = false -> good (mul64 x x).
Proof.
  intros N. destruct (fin64 x) eqn:F.
  - pose proof (Binary.Bmult_correct 53 1024 eq_refl eq_refl binop_nan_pl64 mode_NE x x) as H.
    change (Binary.Bmult 53 1024 eq_refl eq_refl binop_nan_pl64 mode_NE x x) with (mul64 x x) in H.
    destruct (Rlt_bool _ _).
    + destruct H as (_ & H2 & H3). rewrite F in H2. cbn in H2. assert (N' : nan64 (mul64 x x) = false) by now apply fin_not_nan.
      split; [exact N'|]. rewrite (H3 N'). apply xorb_nilpotent.
    + apply ovf_nan in H. rewrite xorb_nilpotent in H. exact H.
  - destruct x as [s|s|s pl H|s m e H]; try discriminate. destruct s; split; reflexivity.
Qed.
Lemma add_good x y : good x -> good y -> good (add64 x y).
Proof.
  intros Gx Gy. destruct (fin64 x) eqn:Fx.
  - destruct (fin64 y) eqn:Fy.
    + pose proof (Binary.Bplus_correct 53 1024 eq_refl eq_refl binop_nan_pl64 mode_NE x y Fx Fy) as H.
      change (Binary.Bplus 53 1024 eq_refl eq_refl binop_nan_pl64 mode_NE x y) with (add64 x y) in H.
      destruct (Rlt_bool _ _).
      * destruct H as (_ & H2 & H3). split; [now apply fin_not_nan|]. rewrite H3. pose proof (good_B2R x Gx). pose proof (good_B2R y Gy).
        destruct (Rcompare_spec (Binary.B2R 53 1024 x + Binary.B2R 53 1024 y) 0) as [L|L|L]; [lra| |reflexivity]. destruct Gx as (_ & ->). reflexivity.
      * destruct H as (H & _). apply ovf_nan in H. destruct Gx as (_ & S). rewrite S in H. exact H.
    + destruct Gy as (N & S). destruct y as [s|s|s pl H|s m e H]; try discriminate. cbn in S. subst s.
      destruct Gx as (N' & S'). destruct x as [s'|s'|s' pl' H'|s' m' e' H']; try discriminate; split; reflexivity.
  - destruct Gx as (N & S). destruct x as [s|s|s pl H|s m e H]; try discriminate. cbn in S. subst s.
    destruct Gy as (N' & S'). destruct y as [s'|s'|s' pl' H'|s' m' e' H']; try discriminate; cbn in S'; subst; split; reflexivity.
Qed.
Lemma fold_good l : forall x, good x -> (forall y, In y l -> good y) -> good (fold_left add64 l x).
Proof. induction l as [|y l IH]; intros x Gx H; cbn; [exact Gx|]. apply IH; [apply add_good; auto; apply H; now left|]. intros z I. apply H. now right. Qed.
Lemma norm_num v : (forall x, In x v -> nan64 x = false) -> nan64 (norm64 v) = false.
Proof.
  intros H. unfold norm64. assert (G : good (dot64 v v)).
  { unfold dot64. assert (A : forall z, In z (map (fun p => mul64 (fst p) (snd p)) (combine v v)) -> good z).
    { intros z I. apply in_map_iff in I. destruct I as ((a & b) & E & I). subst z. cbn. assert (a = b /\ In a v) as (<- & I').
      { clear H. induction v as [|c v IH]; [destruct I|]. cbn in I. destruct I as [I|I]; [injection I as <- <-; split; [reflexivity|now left]|].
        destruct (IH I) as (? & ?). split; [assumption|now right]. }
      apply sq_good. now apply H. }
    unfold sum64. destruct (map _ _) as [|x l]; [split; reflexivity|]. apply fold_good; [apply A; now left|]. intros y I. apply A. now right. }
  destruct G as (N & S). destruct (dot64 v v) as [s|s|s pl Hp|s m e Hm]; try discriminate; cbn in S; try subst s; try reflexivity.
  apply fin_not_nan. destruct (Binary.Bsqrt_correct 53 1024 eq_refl eq_refl unop_nan_pl64 mode_NE (Binary.B754_finite 53 1024 false m e Hm)) as (_ & F & _). exact F.
Qed.
Lemma sub_fin x y : fin64 x = true -> fin64 y = true -> nan64 (sub64 x y) = false.
Proof.
  intros Fx Fy. pose proof (Binary.Bminus_correct 53 1024 eq_refl eq_refl binop_nan_pl64 mode_NE x y Fx Fy) as H.
  change (Binary.Bminus 53 1024 eq_refl eq_refl binop_nan_pl64 mode_NE x y) with (sub64 x y) in H. destruct (Rlt_bool _ _).
  - apply fin_not_nan, H.
  - now apply (ovf_nan _ _ (proj1 H)).
Qed.

Lemma not_gt x y : nan64 x = false -> nan64 y = false -> gt64 x y = false -> le64 x y = true.
Proof.
  unfold gt64, le64. intros Nx Ny H. destruct (Binary.Bcompare 53 1024 x y) as [c|] eqn:E; [now destruct c|].
  exfalso. destruct x, y; try discriminate; unfold Binary.Bcompare, Bcompare in E; cbn in E;
    repeat match goal with s : bool |- _ => destruct s end; discriminate.
Qed.
Lemma all_or v : all_finite v \/ has inf64 v.
Proof.
  induction v as [|x v IH]; [left; intros y []|]. destruct (fin64 x) eqn:F.
  - destruct IH as [IH|(y & I & H)]; [left; intros y [<-|I]; auto|right; exists y; split; [now right|exact H]].
  - right. exists x. split; [now left|]. unfold inf64. now rewrite F.
Qed.
Lemma all_not v : all_finite v -> ~ has inf64 v.
Proof. intros A (x & I & H). unfold inf64 in H. now rewrite (A x I) in H. Qed.

Section Loop.
Variable solve : mat64 -> vec64 -> outcome vec64.
Variable h : vec64 -> vec64 -> outcome (bool * vec64).
Variable relin : vec64 -> mat64 -> outcome (bool * mat64).
Notation loop := (nls_loop64 solve h relin).

Lemma loop_exit fuel yk eps s : gt64 (norm64 (i_res s)) eps = false -> loop fuel yk eps s = Ret (true, s).
Proof. intros H. destruct fuel; cbn; now rewrite H. Qed.
(** One iteration from a non-finite state, or with a NaN in the correction, is the last one. *)
Lemma last_iteration fuel yk eps s yx H' d c x1 : gt64 (norm64 (i_res s)) eps = true ->
  h (i_x s) (i_yx s) = Ret (true, yx) -> relin (i_x s) (i_H s) = Ret (true, H') -> subv64 yk yx = Ret d -> solve H' d = Ret c ->
  addv64 (i_x s) c = Ret x1 -> has inf64 (i_x s) \/ has nan64 c ->
  exists res, loop (S fuel) yk eps s = Ret (true, IT64 H' x1 x1 yx res) /\ has inf64 x1.
Proof.
  intros G Eh Er Ed Es Ea B. destruct (zip_ret _ _ _ _ Ea) as (L1 & L2 & _).
  assert (exists res, subv64 x1 (i_x s) = Ret res) as (res & Er') by (unfold subv64, zip64; rewrite L1, Nat.eqb_refl; eexists; reflexivity).
  exists res. split.
  - cbn [nls_loop64]. rewrite G, Eh. cbn [bind fst snd negb]. rewrite Er. cbn [bind fst snd negb]. rewrite Ed. cbn [bind]. rewrite Es. cbn [bind].
    rewrite Ea. cbn [bind]. rewrite Er'. cbn [bind]. apply loop_exit. cbn. apply gt_nan, norm_nan, (step_nan _ _ _ _ Ea Er' B).
  - apply (addv_inf _ _ _ Ea). destruct B as [B|(x & I & N)]; [now left|right]. exists x. split; [exact I|]. now destruct x.
Qed.

(** How the loop ends. *)
Lemma loop_end fuel : forall yk eps s s', loop fuel yk eps s = Ret (true, s') ->
  gt64 (norm64 (i_res s')) eps = false /\
  (s' = s \/ (i_x s' = i_x1 s' /\ nan64 eps = false /\ exists xp c, addv64 xp c = Ret (i_x1 s') /\ subv64 (i_x1 s') xp = Ret (i_res s'))).
Proof.
  induction fuel as [|fuel IH]; intros yk eps s s' E; cbn [nls_loop64] in E; destruct (gt64 (norm64 (i_res s)) eps) eqn:G; try discriminate.
  1, 3: injection E as <-; split; [exact G|now left].
  assert (Ne : nan64 eps = false) by (destruct (nan64 eps) eqn:N; [now rewrite (gt_nan_r _ _ N) in G|reflexivity]).
  destruct (h _ _) as [(b & yx)| | | |]; try discriminate. cbn [bind fst snd] in E. destruct b; [|discriminate]. cbn [negb] in E.
  destruct (relin _ _) as [(b & H')| | | |]; try discriminate. cbn [bind fst snd] in E. destruct b; [|discriminate]. cbn [negb] in E.
  destruct (subv64 yk yx) as [d| | | |]; try discriminate. cbn [bind] in E.
  destruct (solve H' d) as [c| | | |]; try discriminate. cbn [bind] in E.
  destruct (addv64 (i_x s) c) as [x1| | | |] eqn:Ea; try discriminate. cbn [bind] in E.
  destruct (subv64 x1 (i_x s)) as [res| | | |] eqn:Es; try discriminate. cbn [bind] in E.
  destruct (IH _ _ _ _ E) as (G' & [->|D]); (split; [exact G'|]); right; [|exact D].
  cbn. split; [reflexivity|]. split; [exact Ne|]. exists (i_x s), c. split; assumption.
Qed.
Lemma body_end fuel yk Hk xk eps xkp1 J H' x' x1 J' : nls_body64 solve h relin fuel yk Hk xk eps xkp1 J = Ret (true, (H', x', x1, J')) ->
  (H' = Hk /\ x' = xk /\ x1 = xkp1 /\ exists res, subv64 xkp1 xk = Ret res /\ gt64 (norm64 res) eps = false) \/
  (x' = x1 /\ (has inf64 x1 \/
     exists xp c res, all_finite x1 /\ all_finite xp /\ all_finite c /\ addv64 xp c = Ret x1 /\ subv64 x1 xp = Ret res /\ le64 (norm64 res) eps = true)).
Proof.
  unfold nls_body64. destruct (subv64 xkp1 xk) as [res0| | | |] eqn:E0; try discriminate. cbn [bind].
  destruct (nls_loop64 _ _ _ _ _ _ _) as [(b & s)| | | |] eqn:El; try discriminate. cbn [bind fst snd]. destruct b; [|discriminate]. cbn [negb].
  destruct (cost64 _ _ _ _) as [(b & j)| | | |] eqn:Ec; try discriminate. cbn [bind fst snd]. destruct b; [|discriminate]. cbn [negb].
  intros E. assert (i_H s = H' /\ i_x s = x' /\ i_x1 s = x1) as (<- & <- & <-) by (injection E; auto). clear E.
  destruct (loop_end _ _ _ _ _ El) as (G & [->|(Ex & Ne & xp & c & Ea & Es)]).
  - left. cbn in *. repeat split; auto. exists res0. now split.
  - right. split; [exact Ex|]. destruct (all_or (i_x1 s)) as [A|A]; [right|now left].
    assert (Axp : all_finite xp) by (destruct (all_or xp) as [B|B]; [exact B|exfalso; apply (all_not _ A); apply (addv_inf _ _ _ Ea); now left]).
    assert (Ac : all_finite c) by (destruct (all_or c) as [B|B]; [exact B|exfalso; apply (all_not _ A); apply (addv_inf _ _ _ Ea); now right]).
    exists xp, c, (i_res s). repeat (split; [assumption|]). apply not_gt; auto. apply norm_num.
    intros z I. destruct (In_nth (A:=binary64) (i_res s) z zero64 I) as (i & L & <-). destruct (zip_ret _ _ _ _ Es) as (L1 & L2 & N).
    destruct (N i zero64) as [->|]; [|lia]. apply sub_fin; [apply A|apply Axp]; apply nth_In; lia.
Qed.

Lemma unweighted_end fuel yk Hk xk eps xkp1 J H' x' x1 J' : UnweightedNonlinear64 solve h relin fuel yk Hk xk eps xkp1 J = Ret (true, (H', x', x1, J')) ->
  (H' = Hk /\ x' = xk /\ x1 = xkp1 /\ exists res, subv64 xkp1 xk = Ret res /\ gt64 (norm64 res) eps = false) \/
  (x' = x1 /\ (has inf64 x1 \/
     exists xp c res, all_finite x1 /\ all_finite xp /\ all_finite c /\ addv64 xp c = Ret x1 /\ subv64 x1 xp = Ret res /\ le64 (norm64 res) eps = true)).
Proof. unfold UnweightedNonlinear64. destruct (negb _); [discriminate|]. destruct (negb _); [discriminate|]. destruct (Nat.ltb _ _); [discriminate|]. apply body_end. Qed.
Lemma weighted_end fuel yk Hk xk Wk eps xkp1 J H' x' x1 J' : WeightedNonlinear64 solve h relin fuel yk Hk xk Wk eps xkp1 J = Ret (true, (H', x', x1, J')) ->
  (H' = Hk /\ x' = xk /\ x1 = xkp1 /\ exists res, subv64 xkp1 xk = Ret res /\ gt64 (norm64 res) eps = false) \/
  (x' = x1 /\ (has inf64 x1 \/
     exists xp c res, all_finite x1 /\ all_finite xp /\ all_finite c /\ addv64 xp c = Ret x1 /\ subv64 x1 xp = Ret res /\ le64 (norm64 res) eps = true)).
Proof. unfold WeightedNonlinear64. destruct (negb _); [discriminate|]. destruct (negb _); [discriminate|]. destruct (Nat.ltb _ _); [discriminate|]. destruct (negb _); [discriminate|]. apply body_end. Qed.

(** ** The whole function *)
Lemma guards (yk : vec64) (Hk : mat64) (xk xkp1 : vec64) : m_rows Hk = length yk -> m_cols Hk = length xk -> length xkp1 = length xk -> length xk <= length yk ->
  negb (Nat.eqb (m_rows Hk) (length yk) && Nat.eqb (m_cols Hk) (length xk)) = false /\ negb (Nat.eqb (length xkp1) (length xk)) = false /\
  Nat.ltb (m_rows Hk) (m_cols Hk) = false.
Proof. intros -> -> -> L. rewrite !Nat.eqb_refl. repeat split. apply Nat.ltb_ge. exact L. Qed.
Lemma cost_ret yk Hk xk J : m_rows Hk = length yk -> m_cols Hk = length xk -> exists J', cost64 yk Hk xk J = Ret (true, J').
Proof.
  intros R C. unfold cost64. rewrite R, C, !Nat.eqb_refl. cbn [andb negb]. unfold subv64, zip64. rewrite map_length. unfold m_rows in R. rewrite R, Nat.eqb_refl.
  cbn [bind]. eexists. reflexivity.
Qed.
Lemma nan_success fuel yk Hk xk eps xkp1 J res0 yx H' d c x1 :
  m_rows Hk = length yk -> m_cols Hk = length xk -> length xkp1 = length xk -> length xk <= length yk ->
  m_rows H' = length yk -> m_cols H' = length xk ->
  subv64 xkp1 xk = Ret res0 -> gt64 (norm64 res0) eps = true ->
  h xk [] = Ret (true, yx) -> relin xk Hk = Ret (true, H') -> subv64 yk yx = Ret d -> solve H' d = Ret c -> addv64 xk c = Ret x1 ->
  has inf64 xk \/ has nan64 c ->
  exists J', UnweightedNonlinear64 solve h relin (S fuel) yk Hk xk eps xkp1 J = Ret (true, (H', x1, x1, J')) /\ has inf64 x1.
Proof.
  intros R C L LT R' C' E0 G Eh Er Ed Es Ea B. destruct (guards yk Hk xk xkp1 R C L LT) as (G1 & G2 & G3).
  destruct (last_iteration fuel yk eps (IT64 Hk xk xkp1 [] res0) yx H' d c x1 G Eh Er Ed Es Ea B) as (res & El & I).
  destruct (zip_ret _ _ _ _ Ea) as (L1 & _). destruct (cost_ret yk H' x1 J R' ltac:(congruence)) as (J' & Ec). exists J'. split; [|exact I].
  unfold UnweightedNonlinear64. rewrite G1, G2, G3. unfold nls_body64. rewrite E0. cbn [bind]. rewrite El. cbn [bind fst snd negb i_H i_x i_x1].
  rewrite Ec. reflexivity.
Qed.
Lemma nan_tolerance fuel yk Hk xk eps xkp1 J :
  m_rows Hk = length yk -> m_cols Hk = length xk -> length xkp1 = length xk -> length xk <= length yk -> nan64 eps = true ->
  exists J', UnweightedNonlinear64 solve h relin fuel yk Hk xk eps xkp1 J = Ret (true, (Hk, xk, xkp1, J')).
Proof.
  intros R C L LT N. destruct (guards yk Hk xk xkp1 R C L LT) as (G1 & G2 & G3). destruct (cost_ret yk Hk xkp1 J R ltac:(congruence)) as (J' & Ec). exists J'.
  unfold UnweightedNonlinear64. rewrite G1, G2, G3. unfold nls_body64, subv64, zip64. rewrite L, Nat.eqb_refl. cbn [bind].
  rewrite loop_exit by (now apply gt_nan_r). cbn [bind fst snd negb i_H i_x i_x1]. rewrite Ec. reflexivity.
Qed.
End Loop.
(** A NaN in the state shows in the cost. *)
Lemma dot_nan_r a b : length a = length b -> has nan64 b -> nan64 (dot64 a b) = true.
Proof.
  intros L (x & I & N). apply sum_nan. revert a L. induction b as [|y b IH]; intros a L; [destruct I|]. destruct a as [|z a]; [discriminate|]. cbn.
  destruct I as [->|I]; [exists (mul64 z x); split; [now left|now apply mul_nan_r]|].
  destruct (IH I a ltac:(cbn in L; lia)) as (w & J & M). exists w. split; [now right|exact M].
Qed.
Lemma cost_nan yk Hk x J J' : (forall row, In row (m_data Hk) -> length row = m_cols Hk) -> 0 < length yk -> has nan64 x ->
  cost64 yk Hk x J = Ret (true, J') -> nan64 J' = true.
Proof.
  intros W P N. unfold cost64. destruct (Nat.eqb_spec (m_rows Hk) (length yk)) as [R|]; [|discriminate]. destruct (Nat.eqb_spec (m_cols Hk) (length x)) as [C|]; [|discriminate].
  cbn [andb negb]. destruct (subv64 _ _) as [e| | | |] eqn:E; try discriminate. cbn [bind]. intros H. assert (EJ : mul64 half64 (dot64 e e) = J') by congruence; subst J'. apply mul_nan_r. apply dot_nan_r; [reflexivity|].
  destruct (zip_ret _ _ _ _ E) as (L1 & L2 & Ne). apply (has_nth _ _ zero64). exists 0. split; [lia|]. destruct (Ne 0 zero64) as [->|]; [|lia].
  apply sub_nan_r. destruct (m_data Hk) as [|row rows] eqn:M; [unfold m_rows in R; rewrite M in R; cbn in R; lia|]. cbn. apply dot_nan_r; [|exact N].
  rewrite <- C. apply W. now left.
Qed.
(** A state without entries that are not finite and a model that returns NaN. *)
Definition one64 : binary64 := doubleOfZ 1.
Definition sqrt_model : vec64 -> vec64 -> outcome (bool * vec64) := fun x _ => Ret (true, map (b64_sqrt mode_NE) x).
Lemma sqrt_case : fin64 (doubleOfZ (-1)) = true /\
  match UnweightedNonlinear64 (fun _ d => Ret d) sqrt_model (fun _ H => Ret (true, H)) 1 [one64] (MX64 1 [[one64]]) [doubleOfZ (-1)] half64 [one64] one64 with
  | Ret (true, (_, [x], [x1], J)) => nan64 x && nan64 x1 && nan64 J
  | _ => false
  end = true.
Proof. split; vm_compute; reflexivity. Qed.
