(** Verified fixed-point interval arithmetic, used to evaluate the models on the
    numbers of the unit tests.  [rng x (l, h)]: x lies between l and h units of
    2^-112. *)
From Coq Require Import Reals QArith_base Qreals ZArith Lra Lia Psatz.
From Flocq Require Import Core.
Open Scope R_scope.

Definition prec : Z := 112.
Definition sc : Z := 2 ^ prec.
Definition itv : Type := Z * Z.
Definition rng (x : R) (i : itv) : Prop := IZR (fst i) <= x * IZR sc <= IZR (snd i).

Definition iz (n : Z) : itv := (n * sc, n * sc)%Z.
Definition fdiv (a b : Z) : Z := (a / b)%Z.
Definition cdiv (a b : Z) : Z := (- (- a / b))%Z.
Definition fshr (a : Z) : Z := Z.shiftr a prec.
Definition cshr (a : Z) : Z := (- Z.shiftr (- a) prec)%Z.
Definition iadd (i j : itv) : itv := (fst i + fst j, snd i + snd j)%Z.
Definition iopp (i : itv) : itv := (- snd i, - fst i)%Z.
Definition isub (i j : itv) : itv := iadd i (iopp j).
Definition imul (i j : itv) : itv :=
  if ((0 <=? fst i) && (0 <=? fst j))%Z then (fshr (fst i * fst j), cshr (snd i * snd j)) else
  let a := (fst i * fst j)%Z in let b := (fst i * snd j)%Z in
  let c := (snd i * fst j)%Z in let d := (snd i * snd j)%Z in
  (fshr (Z.min (Z.min a b) (Z.min c d)), cshr (Z.max (Z.max a b) (Z.max c d))).
Definition ipos (i : itv) : bool := (0 <? fst i)%Z.
Definition ineg (i : itv) : bool := (snd i <? 0)%Z.
(** Meaningful for intervals that do not contain 0. *)
Definition iinv (i : itv) : itv := (fdiv (sc * sc) (snd i), cdiv (sc * sc) (fst i)).
Definition iinvn (i : itv) : itv := iopp (iinv (iopp i)).
Definition idiv (i j : itv) : itv := imul i (if ipos j then iinv j else iinvn j).
(** Meaningful for intervals of numbers that are not negative. *)
Definition isqrt (i : itv) : itv := (Z.sqrt (fst i * sc), Z.sqrt (snd i * sc) + 1)%Z.

Lemma sc_pos : 0 < IZR sc.
Proof. apply IZR_lt. reflexivity. Qed.
Lemma fdiv_le a b : (0 < b)%Z -> IZR (fdiv a b) * IZR b <= IZR a.
Proof.
  intros H. rewrite <- mult_IZR. apply IZR_le. unfold fdiv. pose proof (Z.mul_div_le a b H). lia.
Qed.
Lemma cdiv_ge a b : (0 < b)%Z -> IZR a <= IZR (cdiv a b) * IZR b.
Proof.
  intros H. rewrite <- mult_IZR. apply IZR_le. unfold cdiv. pose proof (Z.mul_div_le (- a) b H). lia.
Qed.
Lemma fshr_div a : fshr a = fdiv a sc.
Proof. unfold fshr, fdiv, sc. apply Z.shiftr_div_pow2. unfold prec. lia. Qed.
Lemma cshr_div a : cshr a = cdiv a sc.
Proof. unfold cshr, cdiv, sc. f_equal. apply Z.shiftr_div_pow2. unfold prec. lia. Qed.
Lemma rng_z n : rng (IZR n) (iz n).
Proof. unfold rng, iz. cbn [fst snd]. rewrite mult_IZR. lra. Qed.
Lemma rng_add x y i j : rng x i -> rng y j -> rng (x + y) (iadd i j).
Proof. unfold rng, iadd. cbn [fst snd]. rewrite !plus_IZR. lra. Qed.
Lemma rng_opp x i : rng x i -> rng (- x) (iopp i).
Proof. unfold rng, iopp. cbn [fst snd]. rewrite !opp_IZR. lra. Qed.
Lemma rng_sub x y i j : rng x i -> rng y j -> rng (x - y) (isub i j).
Proof. intros. unfold Rminus, isub. apply rng_add; auto. now apply rng_opp. Qed.
Lemma mul_box x y a b c d m M : a <= x <= b -> c <= y <= d ->
  m <= a * c -> m <= a * d -> m <= b * c -> m <= b * d -> a * c <= M -> a * d <= M -> b * c <= M -> b * d <= M -> m <= x * y <= M.
Proof.
  intros X Y. intros.
  assert (U : forall t, c <= t <= d -> m <= a * t <= M).
  { intros t T. destruct (Rle_dec 0 a); split; nra. }
  assert (V : forall t, c <= t <= d -> m <= b * t <= M).
  { intros t T. destruct (Rle_dec 0 b); split; nra. }
  pose proof (U y Y). pose proof (V y Y). destruct (Rle_dec 0 y); split; nra.
Qed.
Lemma rng_mul x y i j : rng x i -> rng y j -> rng (x * y) (imul i j).
Proof.
  unfold rng, imul. rewrite !fshr_div, !cshr_div. intros X Y. set (S := IZR sc) in *. pose proof sc_pos as P. fold S in P.
  assert (SP : (0 < sc)%Z) by reflexivity. destruct ((0 <=? fst i) && (0 <=? fst j))%Z eqn:E; cbn [fst snd].
  { apply andb_prop in E. destruct E as (E & F). apply Z.leb_le, IZR_le in E, F.
    pose proof (fdiv_le (fst i * fst j) sc SP) as L. pose proof (cdiv_ge (snd i * snd j) sc SP) as M. fold S in L, M. rewrite mult_IZR in L, M.
    assert (K : IZR (fst i) * IZR (fst j) <= x * S * (y * S) <= IZR (snd i) * IZR (snd j)) by (split; apply Rmult_le_compat; lra).
    clearbody S. split; apply Rmult_le_reg_r with S; auto; nra. }
  set (a := (fst i * fst j)%Z). set (b := (fst i * snd j)%Z). set (c := (snd i * fst j)%Z). set (d := (snd i * snd j)%Z).
  set (mn := Z.min (Z.min a b) (Z.min c d)). set (mx := Z.max (Z.max a b) (Z.max c d)).
  pose proof (mul_box _ _ _ _ _ _ (IZR mn) (IZR mx) X Y) as B.
  rewrite <- !mult_IZR in B. fold a b c d in B.
  assert (K : IZR mn <= x * S * (y * S) <= IZR mx) by (apply B; apply IZR_le; unfold mn, mx; lia).
  pose proof (fdiv_le mn sc SP) as L. pose proof (cdiv_ge mx sc SP) as M. fold S in L, M.
  split; apply Rmult_le_reg_r with S; auto; nra.
Qed.
Lemma rng_pos x i : rng x i -> ipos i = true -> 0 < x.
Proof.
  unfold rng, ipos. intros H E. apply Z.ltb_lt, IZR_lt in E. pose proof sc_pos. destruct (Rlt_dec 0 x); auto. nra.
Qed.
Lemma rng_neg x i : rng x i -> ineg i = true -> x < 0.
Proof.
  unfold rng, ineg. intros H E. apply Z.ltb_lt, IZR_lt in E. pose proof sc_pos. destruct (Rlt_dec x 0); auto. nra.
Qed.
Lemma rng_inv x i : rng x i -> ipos i = true -> rng (/ x) (iinv i).
Proof.
  intros H E. pose proof (rng_pos _ _ H E) as X. unfold rng, iinv in *. unfold ipos in E. apply Z.ltb_lt in E. cbn [fst snd].
  pose proof sc_pos as P. set (S := IZR sc) in *. assert (A : 0 < IZR (fst i)) by now apply IZR_lt.
  assert (B : 0 < IZR (snd i)) by lra. assert (B' : (0 < snd i)%Z) by now apply lt_IZR.
  pose proof (fdiv_le (sc * sc) _ B') as L. pose proof (cdiv_ge (sc * sc) _ E) as M. rewrite mult_IZR in L, M. fold S in L, M.
  assert (Q : / x * S * (x * S) = S * S) by (field; lra).
  assert (W : 0 < / x * S) by (apply Rmult_lt_0_compat; auto; now apply Rinv_0_lt_compat).
  split.
  - apply Rmult_le_reg_r with (IZR (snd i)); auto. nra.
  - apply Rmult_le_reg_r with (IZR (fst i)); auto. nra.
Qed.
Lemma rng_div x y i j : rng x i -> rng y j -> (ipos j || ineg j)%bool = true -> rng (x / y) (idiv i j).
Proof.
  intros X Y E. unfold Rdiv, idiv. apply rng_mul; auto. destruct (ipos j) eqn:P; [now apply rng_inv|].
  cbn in E. assert (N : ipos (iopp j) = true). { unfold ipos, iopp, ineg in *. cbn [fst snd]. apply Z.ltb_lt in E. apply Z.ltb_lt. lia. }
  unfold iinvn. assert (Q := rng_neg _ _ Y E). replace (/ y) with (- / - y) by (field; lra).
  apply rng_opp, rng_inv; auto. now apply rng_opp.
Qed.
Lemma rng_nz y j : rng y j -> (ipos j || ineg j)%bool = true -> y <> 0.
Proof.
  intros Y E. destruct (ipos j) eqn:P; [pose proof (rng_pos _ _ Y P); lra|]. cbn in E. pose proof (rng_neg _ _ Y E). lra.
Qed.
Definition inn (i : itv) : bool := (0 <=? fst i)%Z.
Lemma rng_nn x i : rng x i -> inn i = true -> 0 <= x.
Proof.
  unfold rng, inn. intros H E. apply Z.leb_le, IZR_le in E. pose proof sc_pos. destruct (Rle_dec 0 x); auto. nra.
Qed.
Lemma rng_sqrt x i : rng x i -> inn i = true -> rng (sqrt x) (isqrt i).
Proof.
  intros H E. pose proof (rng_nn _ _ H E) as X. unfold inn in E. apply Z.leb_le in E. unfold rng, isqrt in *. cbn [fst snd].
  pose proof sc_pos as P. assert (SP : (0 < sc)%Z) by reflexivity. set (S := IZR sc) in *.
  assert (B' : (fst i <= snd i)%Z) by (apply le_IZR; lra).
  assert (A1 : (0 <= fst i * sc)%Z) by nia. assert (A2 : (0 <= snd i * sc)%Z) by nia.
  pose proof (Z.sqrt_spec _ A1) as (L & _). pose proof (Z.sqrt_spec _ A2) as (_ & U).
  pose proof (Z.sqrt_nonneg (fst i * sc)) as N1. pose proof (Z.sqrt_nonneg (snd i * sc)) as N2.
  set (a := Z.sqrt (fst i * sc)) in *. set (b := Z.sqrt (snd i * sc)) in *.
  apply IZR_le in L. apply IZR_lt in U. rewrite !mult_IZR in L, U. rewrite succ_IZR in U. apply IZR_le in N1, N2. fold S in L, U.
  assert (Q : sqrt x * S * (sqrt x * S) = x * S * S). { replace (sqrt x * S * (sqrt x * S)) with (sqrt x * sqrt x * S * S) by ring. now rewrite sqrt_sqrt. }
  assert (W : 0 <= sqrt x * S) by (apply Rmult_le_pos; [apply sqrt_pos|lra]).
  rewrite plus_IZR. split.
  - apply Rnot_lt_le. intros C. assert (sqrt x * S * (sqrt x * S) < IZR a * IZR a) by nra. nra.
  - apply Rnot_lt_le. intros C. assert ((IZR b + 1) * (IZR b + 1) < sqrt x * S * (sqrt x * S)) by nra. nra.
Qed.
(** Comparisons. *)
Lemma rng_lt x y i j : rng x i -> rng y j -> (snd i <? fst j)%Z = true -> x < y.
Proof.
  unfold rng. intros X Y E. apply Z.ltb_lt, IZR_lt in E. pose proof sc_pos. destruct (Rlt_dec x y); auto. nra.
Qed.
Lemma rng_le x y i j : rng x i -> rng y j -> (snd i <=? fst j)%Z = true -> x <= y.
Proof.
  unfold rng. intros X Y E. apply Z.leb_le, IZR_le in E. pose proof sc_pos. destruct (Rle_dec x y); auto. nra.
Qed.
Lemma rng_within x i l h : IZR l <= x * IZR sc <= IZR h -> rng x i -> rng x (Z.max l (fst i), Z.min h (snd i)).
Proof. unfold rng. cbn. intros. destruct (Z.max_dec l (fst i)) as [->| ->], (Z.min_dec h (snd i)) as [->| ->]; lra. Qed.

(** Division by a positive integer. *)
Definition idz (i : itv) (k : Z) : itv := (fdiv (fst i) k, cdiv (snd i) k).
Lemma rng_idz x i k : rng x i -> (0 < k)%Z -> rng (x / IZR k) (idz i k).
Proof.
  unfold rng, idz. cbn [fst snd]. intros H K. pose proof (fdiv_le (fst i) k K). pose proof (cdiv_ge (snd i) k K).
  apply IZR_lt in K. set (S := IZR sc) in *. assert (E : x / IZR k * S * IZR k = x * S) by (field; lra).
  split; apply Rmult_le_reg_r with (IZR k); auto; lra.
Qed.
(** ** Sine and cosine *)
(** 2^-8 of the argument is at most 1 in size for arguments below 256. *)
Definition half : Z := 8.
(** terms a^(k)/k!, from k on, alternately; a2 is the square of a *)
(** Room for n and for n + 1 terms. *)
Fixpoint bracket (n : nat) (k : Z) (a2 t : itv) : itv :=
  match n with
  | O => let u := isub t (idz (imul t a2) ((k + 1) * (k + 2))) in (Z.min (fst t) (fst u), Z.max (snd t) (snd u))
  | S n => isub t (bracket n (k + 2) a2 (idz (imul t a2) ((k + 1) * (k + 2))))
  end.
Fixpoint ser (n : nat) (k a2 t : R) : R :=
  match n with O => t | S n => t - ser n (k + 2) a2 (t * a2 / ((k + 1) * (k + 2))) end.
Lemma rng_wider x i l h : rng x i -> (l <= fst i)%Z -> (snd i <= h)%Z -> rng x (l, h).
Proof. unfold rng. cbn [fst snd]. intros H L M. apply IZR_le in L, M. lra. Qed.
Lemma rng_term k a2 t i j : (0 <= k)%Z -> rng a2 i -> rng t j ->
  rng (t * a2 / ((IZR k + 1) * (IZR k + 2))) (idz (imul j i) ((k + 1) * (k + 2))).
Proof.
  intros K A T. replace ((IZR k + 1) * (IZR k + 2)) with (IZR ((k + 1) * (k + 2))) by (rewrite mult_IZR, !plus_IZR; reflexivity).
  apply rng_idz; [now apply rng_mul|]. nia.
Qed.
Lemma rng_bracket n : forall k a2 t i j, (0 <= k)%Z -> rng a2 i -> rng t j ->
  rng (ser n (IZR k) a2 t) (bracket n k i j) /\ rng (ser (S n) (IZR k) a2 t) (bracket n k i j).
Proof.
  induction n as [|n IH]; intros k a2 t i j K A T; pose proof (rng_term k a2 t i j K A T) as U.
  - cbn [ser bracket]. split; (eapply rng_wider; [eassumption || (apply rng_sub; eassumption)|lia|lia]).
  - replace (IZR k + 2) with (IZR (k + 2)) in U by (rewrite plus_IZR; reflexivity).
    destruct (IH (k + 2)%Z a2 _ i _ ltac:(lia) A U) as (V & W).
    change (ser (S (S n)) (IZR k) a2 t) with (t - ser (S n) (IZR k + 2) a2 (t * a2 / ((IZR k + 1) * (IZR k + 2)))).
    change (ser (S n) (IZR k) a2 t) with (t - ser n (IZR k + 2) a2 (t * a2 / ((IZR k + 1) * (IZR k + 2)))). cbn [bracket].
    replace (IZR k + 2) with (IZR (k + 2)) by (rewrite plus_IZR; reflexivity).
    split; apply rng_sub; auto.
Qed.
Lemma fact_step k : INR (fact (S (S k))) = INR (fact k) * ((INR k + 1) * (INR k + 2)).
Proof.
  change (fact (S (S k))) with (S (S k) * (S k * fact k))%nat. rewrite !mult_INR, !S_INR. ring.
Qed.
Lemma ser_sum n : forall k a, ser n (INR k) (a * a) (a ^ k / INR (fact k)) =
  sum_f_R0 (fun i => (-1) ^ i * (a ^ (k + 2 * i) / INR (fact (k + 2 * i)))) n.
Proof.
  induction n as [|n IH]; intros k a; cbn [ser].
  - cbn [sum_f_R0]. rewrite Nat.mul_0_r, Nat.add_0_r. simpl. lra.
  - rewrite decomp_sum by lia. cbn [pred]. rewrite Nat.mul_0_r, Nat.add_0_r. cbn [pow].
    replace (INR k + 2) with (INR (S (S k))) by (rewrite !S_INR; ring).
    replace (a ^ k / INR (fact k) * (a * a) / ((INR k + 1) * INR (S (S k)))) with (a ^ (S (S k)) / INR (fact (S (S k)))).
    2:{ rewrite fact_step, !S_INR. cbn [pow]. pose proof (INR_fact_neq_0 k). pose proof (pos_INR k). field. repeat split; lra. }
    rewrite IH. unfold Rminus. f_equal; [lra|]. rewrite <- (Rmult_1_l (sum_f_R0 _ _)), <- Ropp_mult_distr_l_reverse, scal_sum.
    apply sum_eq. intros i _. replace (k + 2 * S i)%nat with (S (S k) + 2 * i)%nat by lia. cbn [pow]. ring.
Qed.
Lemma sin_ser n a : ser n 1 (a * a) a = sin_approx a n.
Proof.
  pose proof (ser_sum n 1 a) as E. replace (a ^ 1 / INR (fact 1)) with a in E by (simpl; field). change (INR 1) with 1 in E. rewrite E.
  apply sum_eq. intros i _. unfold sin_term. now rewrite Nat.add_comm.
Qed.
Lemma cos_ser n a : ser n 0 (a * a) 1 = cos_approx a n.
Proof.
  pose proof (ser_sum n 0 a) as E. replace (a ^ 0 / INR (fact 0)) with 1 in E by (simpl; field). change (INR 0) with 0 in E. rewrite E.
  apply sum_eq. reflexivity.
Qed.
(** Bounds for the angle a = x / 2^8, then eight doublings. *)
Definition small (i : itv) : itv * itv :=
  let a := idz i (2 ^ half) in let a2 := imul a a in (bracket 11 1 a2 a, bracket 11 0 a2 (iz 1)).
Fixpoint dbl (n : nat) (sc : itv * itv) : itv * itv :=
  match n with
  | O => sc
  | S n => let '(s, c) := dbl n sc in let t := imul s c in let d := imul c c in (iadd t t, isub (iadd d d) (iz 1))
  end.
Definition sincos_pos (i : itv) : itv * itv := dbl 8 (small i).
Definition sincos (i : itv) : itv * itv :=
  if (0 <=? fst i)%Z then sincos_pos i
  else if (snd i <=? 0)%Z then let '(s, c) := sincos_pos (iopp i) in (iopp s, c)
  else ((- sc, sc)%Z, (- sc, sc)%Z).
Definition isin (i : itv) : itv := fst (sincos i).
Definition icos (i : itv) : itv := snd (sincos i).
(** The series is used up to 2^8. *)
Definition fits (i : itv) : bool := (Z.abs (fst i) <=? 256 * sc)%Z && (Z.abs (snd i) <=? 256 * sc)%Z.
Lemma between_ok x r1 r2 i : rng r1 i /\ rng r2 i -> r1 <= x <= r2 -> rng x i.
Proof. unfold rng. pose proof sc_pos. intros. split; nra. Qed.
Lemma trig_box a i j : rng a i -> rng (a * a) j -> 0 <= a <= 1 ->
  rng (sin a) (bracket 11 1 j i) /\ rng (cos a) (bracket 11 0 j (iz 1)).
Proof.
  intros A A2 R. assert (Z1 : (0 <= 1)%Z) by lia. assert (Z0 : (0 <= 0)%Z) by lia. split.
  - pose proof (pre_sin_bound a 5 ltac:(lra) ltac:(lra)) as S. change (2 * 5 + 1)%nat with 11%nat in S. change (2 * (5 + 1))%nat with 12%nat in S.
    rewrite <- !sin_ser in S. apply (between_ok _ _ _ _ (rng_bracket 11 1 _ _ _ _ Z1 A2 A) S).
  - pose proof (pre_cos_bound a 5 ltac:(lra) ltac:(lra)) as S. change (2 * 5 + 1)%nat with 11%nat in S. change (2 * (5 + 1))%nat with 12%nat in S.
    rewrite <- !cos_ser in S. apply (between_ok _ _ _ _ (rng_bracket 11 0 _ _ _ _ Z0 A2 (rng_z 1)) S).
Qed.
Lemma small_ok x i : rng x i -> 0 <= x <= 256 -> rng (sin (x / 256)) (fst (small i)) /\ rng (cos (x / 256)) (snd (small i)).
Proof.
  intros H B. assert (A : rng (x / 256) (idz i (2 ^ half))).
  { apply (rng_idz x i (2 ^ half)); auto. reflexivity. }
  apply (trig_box _ _ _ A (rng_mul _ _ _ _ A A)). lra.
Qed.
Lemma dbl_ok n : forall y p, rng (sin y) (fst p) /\ rng (cos y) (snd p) -> 
  rng (sin (2 ^ n * y)) (fst (dbl n p)) /\ rng (cos (2 ^ n * y)) (snd (dbl n p)).
Proof.
  induction n as [|n IH]; intros y p H; cbn [dbl pow]; [now rewrite Rmult_1_l|].
  destruct (IH y p H) as (S & C). destruct (dbl n p) as (s, c). cbn [fst snd] in *.
  rewrite Rmult_assoc. set (z := 2 ^ n * y) in *. split.
  - rewrite sin_2a. replace (2 * sin z * cos z) with (sin z * cos z + sin z * cos z) by ring. apply rng_add; now apply rng_mul.
  - rewrite cos_2a_cos. replace (2 * cos z * cos z) with (cos z * cos z + cos z * cos z) by ring.
    apply rng_sub; [|apply rng_z]. apply rng_add; now apply rng_mul.
Qed.
Lemma sincos_pos_ok x i : rng x i -> 0 <= x <= 256 -> rng (sin x) (fst (sincos_pos i)) /\ rng (cos x) (snd (sincos_pos i)).
Proof.
  intros H B. pose proof (dbl_ok 8 _ _ (small_ok x i H B)) as D. replace (2 ^ 8 * (x / 256)) with x in D by (cbn [pow]; lra). exact D.
Qed.
Lemma fits_ok x i : rng x i -> fits i = true -> - 256 <= x <= 256.
Proof.
  unfold rng, fits. intros H E. apply andb_prop in E. destruct E as (E1 & E2). apply Z.leb_le in E1, E2.
  assert (L1 : (- (256 * sc) <= fst i)%Z) by lia. assert (L2 : (snd i <= 256 * sc)%Z) by lia.
  apply IZR_le in L1, L2. rewrite opp_IZR in L1. rewrite mult_IZR in L1, L2. pose proof sc_pos.
  split; apply Rmult_le_reg_r with (IZR sc); auto; lra.
Qed.
Lemma one_box y : -1 <= y <= 1 -> rng y (- sc, sc)%Z.
Proof. unfold rng. cbn [fst snd]. rewrite opp_IZR. pose proof sc_pos. intros. split; nra. Qed.
Lemma sincos_ok x i : rng x i -> fits i = true -> rng (sin x) (isin i) /\ rng (cos x) (icos i).
Proof.
  intros H F. pose proof (fits_ok _ _ H F) as B. unfold isin, icos, sincos. pose proof sc_pos as P.
  destruct (Z.leb_spec 0 (fst i)) as [L|L]; [|destruct (Z.leb_spec (snd i) 0) as [M|M]].
  - apply sincos_pos_ok; auto. apply IZR_le in L. split; [|lra]. unfold rng in H. apply Rmult_le_reg_r with (IZR sc); auto; lra.
  - destruct (sincos_pos_ok (- x) (iopp i)) as (S & C).
    + now apply rng_opp.
    + apply IZR_le in M. split; [|lra]. unfold rng in H. apply Rmult_le_reg_r with (IZR sc); auto; lra.
    + rewrite sin_neg in S. rewrite cos_neg in C. destruct (sincos_pos (iopp i)) as (s, c). cbn [fst snd] in *. split; auto.
      rewrite <- (Ropp_involutive (sin x)). now apply rng_opp.
  - cbn [fst snd]. split; apply one_box; [apply SIN_bound|apply COS_bound].
Qed.
Lemma rng_sin x i : rng x i -> fits i = true -> rng (sin x) (isin i).
Proof. intros. now apply sincos_ok. Qed.
Lemma rng_cos x i : rng x i -> fits i = true -> rng (cos x) (icos i).
Proof. intros. now apply sincos_ok. Qed.
(** ** Inverse functions: the bounds are proposed and checked. *)
(** A number k/10^d, rounded outwards. *)
Definition dec (k d : Z) : itv := idiv (iz k) (iz (10 ^ d)).
Lemma rng_norm x i j : rng x i -> i = j -> rng x j.
Proof. now intros H <-. Qed.
Lemma rng_pt l : rng (IZR l / IZR sc) (l, l).
Proof. unfold rng. cbn [fst snd]. pose proof sc_pos. replace (IZR l / IZR sc * IZR sc) with (IZR l) by (field; lra). lra. Qed.
Lemma rng_from l h x : IZR l / IZR sc <= x <= IZR h / IZR sc -> rng x (l, h).
Proof.
  intros (A & B). unfold rng. cbn [fst snd]. pose proof sc_pos as P.
  pose proof (Rmult_le_compat_r _ _ _ (Rlt_le _ _ P) A) as A'. pose proof (Rmult_le_compat_r _ _ _ (Rlt_le _ _ P) B) as B'.
  replace (IZR l / IZR sc * IZR sc) with (IZR l) in A' by (field; lra).
  replace (IZR h / IZR sc * IZR sc) with (IZR h) in B' by (field; lra). lra.
Qed.
Definition pi_l : Z := fst (dec 31415926535897932384626 22).
Definition pi_h : Z := snd (dec 31415926535897932384627 22).
Lemma pi_between a b : 0 < sin a -> sin b < 0 -> 3 <= a <= 4 -> 3 <= b <= 4 -> a <= PI <= b.
Proof.
  intros L H BL BH. pose proof PI2_3_2 as P. pose proof PI_4. split; apply Rnot_lt_le; intros C.
  - pose proof (sin_le_0 a ltac:(lra) ltac:(lra)). lra.
  - pose proof (sin_ge_0 b ltac:(lra) ltac:(lra)). lra.
Qed.
Lemma pt_between z : (3 * sc <=? z)%Z = true -> (z <=? 4 * sc)%Z = true -> 3 <= IZR z / IZR sc <= 4.
Proof.
  intros B1 B2. apply Z.leb_le, IZR_le in B1, B2. rewrite mult_IZR in B1, B2. pose proof sc_pos as P. set (S := IZR sc) in *. clearbody S.
  split; apply Rmult_le_reg_r with S; auto; unfold Rdiv; rewrite Rmult_assoc, Rinv_l; lra.
Qed.
Lemma rng_PI : rng PI (pi_l, pi_h).
Proof.
  apply rng_from, pi_between.
  - apply (rng_pos _ (isin (pi_l, pi_l))); [apply rng_sin; [apply rng_pt|]|]; vm_cast_no_check (eq_refl true).
  - apply (rng_neg _ (isin (pi_h, pi_h))); [apply rng_sin; [apply rng_pt|]|]; vm_cast_no_check (eq_refl true).
  - apply pt_between; vm_cast_no_check (eq_refl true).
  - apply pt_between; vm_cast_no_check (eq_refl true).
Qed.
Definition angle (z : Z) : bool := ((- sc * 157 <=? z * 100)%Z && (z * 100 <=? sc * 157)%Z)%bool.
Lemma angle_ok z : angle z = true -> - (PI / 2) < IZR z / IZR sc < PI / 2.
Proof.
  intros E. apply andb_prop in E. destruct E as (E1 & E2). apply Z.leb_le, IZR_le in E1, E2. rewrite !mult_IZR in E1, E2. rewrite opp_IZR in E1.
  assert (P : 2 * 157 / 100 < PI).
  { apply (rng_lt _ _ _ _ (rng_div _ _ _ _ (rng_mul _ _ _ _ (rng_z 2) (rng_z 157)) (rng_z 100) (eq_refl true <: (ipos (iz 100) || ineg (iz 100))%bool = true)) rng_PI).
    vm_cast_no_check (eq_refl true). }
  pose proof sc_pos as Q. set (S := IZR sc) in *. clearbody S. set (y := IZR z) in *. clearbody y. assert (K : - (157 / 100) <= y / S <= 157 / 100).
  { split; apply Rmult_le_reg_r with S; auto; unfold Rdiv; rewrite ?Rmult_assoc, ?Rinv_l; lra. }
  lra.
Qed.
(** Is tan(l) <= x <= tan(h) for x in i? *)
Definition atan_ok (i : itv) (l h : Z) : bool :=
  (angle l && angle h && inn (isub (imul i (icos (l, l))) (isin (l, l))) && inn (isub (isin (h, h)) (imul i (icos (h, h)))))%bool.
Lemma angle_fits z : angle z = true -> fits (z, z) = true.
Proof.
  unfold angle, fits. cbn [fst snd]. intros E. apply andb_prop in E. destruct E as (E1 & E2). apply Z.leb_le in E1, E2.
  assert (0 < sc)%Z by reflexivity. apply andb_true_intro. split; apply Z.leb_le; lia.
Qed.
Lemma rng_atan x i l h : rng x i -> atan_ok i l h = true -> rng (atan x) (l, h).
Proof.
  unfold atan_ok. intros X E. apply andb_prop in E. destruct E as (E & E4). apply andb_prop in E. destruct E as (E & E3).
  apply andb_prop in E. destruct E as (E1 & E2). pose proof (angle_ok _ E1) as A1. pose proof (angle_ok _ E2) as A2.
  pose proof (angle_fits _ E1) as F1. pose proof (angle_fits _ E2) as F2. apply rng_from.
  assert (M : forall a b, a <= b -> atan a <= atan b). { intros a b [H|H]; [left; now apply atan_increasing|right; now rewrite H]. }
  pose proof (rng_nn _ _ (rng_sub _ _ _ _ (rng_mul _ _ _ _ X (rng_cos _ _ (rng_pt l) F1)) (rng_sin _ _ (rng_pt l) F1)) E3) as L.
  pose proof (rng_nn _ _ (rng_sub _ _ _ _ (rng_sin _ _ (rng_pt h) F2) (rng_mul _ _ _ _ X (rng_cos _ _ (rng_pt h) F2))) E4) as H.
  set (y := IZR l / IZR sc) in *. set (z := IZR h / IZR sc) in *.
  pose proof (cos_gt_0 y ltac:(lra) ltac:(lra)). pose proof (cos_gt_0 z ltac:(lra) ltac:(lra)).
  split.
  - rewrite <- (atan_tan y) by lra. apply M. unfold tan. apply Rmult_le_reg_r with (cos y); auto. unfold Rdiv. rewrite Rmult_assoc, Rinv_l; lra.
  - rewrite <- (atan_tan z) by lra. apply M. unfold tan. apply Rmult_le_reg_r with (cos z); auto. unfold Rdiv. rewrite Rmult_assoc, Rinv_l; lra.
Qed.
Definition asin_ok (i : itv) (l h : Z) : bool :=
  (angle l && angle h && inn (isub i (isin (l, l))) && inn (isub (isin (h, h)) i))%bool.
Lemma rng_asin x i l h : rng x i -> asin_ok i l h = true -> rng (asin x) (l, h).
Proof.
  unfold asin_ok. intros X E. apply andb_prop in E. destruct E as (E & E4). apply andb_prop in E. destruct E as (E & E3).
  apply andb_prop in E. destruct E as (E1 & E2). pose proof (angle_ok _ E1) as A1. pose proof (angle_ok _ E2) as A2.
  pose proof (angle_fits _ E1) as F1. pose proof (angle_fits _ E2) as F2. apply rng_from.
  pose proof (rng_nn _ _ (rng_sub _ _ _ _ X (rng_sin _ _ (rng_pt l) F1)) E3) as L.
  pose proof (rng_nn _ _ (rng_sub _ _ _ _ (rng_sin _ _ (rng_pt h) F2) X) E4) as H.
  set (y := IZR l / IZR sc) in *. set (z := IZR h / IZR sc) in *.
  pose proof (SIN_bound y). pose proof (SIN_bound z). pose proof (asin_bound x) as B.
  assert (S : sin (asin x) = x) by (apply sin_asin; lra).
  split; apply sin_incr_0; lra.
Qed.
Lemma Rpower_32 x : 0 < x -> Rpower x (3 / 2) = x * sqrt x.
Proof.
  intros H. replace (3 / 2) with (1 + / 2) by lra. rewrite Rpower_plus, Rpower_1, Rpower_sqrt; auto.
Qed.
Definition iabs (i : itv) : itv :=
  if (0 <=? fst i)%Z then i else if (snd i <=? 0)%Z then iopp i else (0, Z.max (- fst i) (snd i))%Z.
Lemma rng_abs x i : rng x i -> rng (Rabs x) (iabs i).
Proof.
  destruct i as (l, h). intros H. pose proof (rng_opp _ _ H) as H'. unfold iabs. cbn [fst snd].
  destruct (Z.leb_spec 0 l) as [E|E].
  - rewrite Rabs_right; auto. apply Rle_ge, (rng_nn x (l, h)); auto. now apply Z.leb_le.
  - destruct (Z.leb_spec h 0) as [F|F].
    + rewrite Rabs_left1; auto. assert (0 <= - x); [|lra]. apply (rng_nn _ _ H'). unfold iopp, inn. cbn. apply Z.leb_le. lia.
    + unfold rng in *. cbn [fst snd] in *. pose proof sc_pos as S. set (S0 := IZR sc) in *. clearbody S0.
      assert (IZR (- l) <= IZR (Z.max (- l) h)) by (apply IZR_le; lia). assert (IZR h <= IZR (Z.max (- l) h)) by (apply IZR_le; lia).
      rewrite opp_IZR in *. unfold Rabs. destruct (Rcase_abs x); nra.
Qed.
Lemma rng_q n d i : rng (IZR n / IZR (Zpos d)) i -> rng (Q2R (n # d)) i.
Proof. trivial. Qed.
Lemma rng_pow32 x i j : rng x i -> ipos i = true -> rng (x * sqrt x) j -> rng (Rpower x (3 / 2)) j.
Proof. intros H P K. rewrite Rpower_32; auto. now apply (rng_pos _ i). Qed.
Definition ifloor (i : itv) : Z := (fst i / sc)%Z.
Definition floor_ok (i : itv) (n : Z) : bool := ((n * sc <=? fst i) && (snd i <? (n + 1) * sc))%Z.
Lemma floor_is x i n : rng x i -> floor_ok i n = true -> IZR n <= x < IZR n + 1.
Proof.
  unfold rng, floor_ok. intros (A & B) E. apply andb_prop in E. destruct E as (C & D). apply Z.leb_le, IZR_le in C. apply Z.ltb_lt, IZR_lt in D.
  rewrite mult_IZR in *. rewrite plus_IZR in D. pose proof sc_pos as P. set (S0 := IZR sc) in *. clearbody S0.
  split; [destruct (Rle_dec (IZR n) x)|destruct (Rlt_dec x (IZR n + 1))]; auto; nra.
Qed.
Lemma rng_floor x i n : rng x i -> floor_ok i n = true -> rng (IZR (Zfloor x)) (iz n).
Proof. intros H E. pose proof (floor_is _ _ _ H E). rewrite (Zfloor_imp n); [apply rng_z|]. rewrite plus_IZR. lra. Qed.
Definition trunc_ok (i : itv) (n : Z) : bool := (inn i && floor_ok i n || ineg i && floor_ok (iopp i) (- n))%bool.
Definition itrunc (i : itv) : Z := if inn i then ifloor i else (- ifloor (iopp i))%Z.
Lemma rng_trunc x i n : rng x i -> trunc_ok i n = true -> rng (IZR (Ztrunc x)) (iz n).
Proof.
  intros H E. unfold trunc_ok in E. apply Bool.orb_prop in E. destruct E as [E|E]; apply andb_prop in E; destruct E as (N & E).
  - pose proof (rng_nn _ _ H N). rewrite Ztrunc_floor; auto. now apply rng_floor with i.
  - pose proof (rng_neg _ _ H N). rewrite Ztrunc_ceil by lra. unfold Zceil. pose proof (floor_is _ _ _ (rng_opp _ _ H) E) as F.
    rewrite (Zfloor_imp (- n)); [rewrite Z.opp_involutive; apply rng_z|]. rewrite plus_IZR. lra.
Qed.
(** ** Evaluation *)
(** Proposed bounds for an arc tangent: Newton iteration on the midpoint. *)
Definition mid (i : itv) : Z := ((fst i + snd i) / 2)%Z.
Fixpoint newton (n : nat) (x t : Z) : Z :=
  match n with
  | O => t
  | S n => let sc2 := sincos (t, t) in let c := mid (snd sc2) in let s := mid (fst sc2) in
           newton n x (t + ((x * c / sc - s) * sc / (c + x * s / sc)))%Z
  end.
Definition slack (i : itv) : Z := (snd i - fst i + 2 ^ 44)%Z.
Definition guess_atan (i : itv) : itv :=
  let x := mid i in let ax := Z.abs x in
  let t0 := if (ax <=? sc)%Z then ax else ((mid (pi_l, pi_h)) / 2 - sc * sc / ax)%Z in
  let t := newton 6 ax t0 in let t := if (x <? 0)%Z then (- t)%Z else t in
  (t - slack i, t + slack i)%Z.
Fixpoint newton_s (n : nat) (x t : Z) : Z :=
  match n with
  | O => t
  | S n => let sc2 := sincos (t, t) in newton_s n x (t + (x - mid (fst sc2)) * sc / mid (snd sc2))%Z
  end.
Definition guess_asin (i : itv) : itv :=
  let t := newton_s 8 (mid i) (mid i) in (t - 2 * slack i * sc / mid (icos (t, t)), t + 2 * slack i * sc / mid (icos (t, t)))%Z.
(** [ev e] adds bounds for every subterm of [e] to the context. *)
Ltac keep p :=
  let T := type of p in lazymatch T with rng ?x ?i =>
    let j := eval vm_compute in i in let H := fresh "rg" in
    let _ := match goal with _ => pose proof (rng_norm x i j p (eq_refl j <: i = j)) as H end in constr:(H) end.
Ltac ev e := 
  lazymatch goal with
  | H : rng e _ |- _ => H
  | _ => lazymatch e with
    | ?x + ?y => let p := ev x in let q := ev y in keep constr:(rng_add _ _ _ _ p q)
    | ?x - ?y => let p := ev x in let q := ev y in keep constr:(rng_sub _ _ _ _ p q)
    | ?x * ?y => let p := ev x in let q := ev y in keep constr:(rng_mul _ _ _ _ p q)
    | ?x / ?y => let p := ev x in let q := ev y in
        lazymatch type of q with rng _ ?j => keep constr:(rng_div _ _ _ _ p q (eq_refl true <: (ipos j || ineg j)%bool = true)) end
    | / ?y => let q := ev y in
        lazymatch type of q with rng _ ?j => keep constr:(rng_inv _ _ q (eq_refl true <: ipos j = true)) end
    | - ?x => let p := ev x in keep constr:(rng_opp _ _ p)
    | sqrt ?x => let p := ev x in
        lazymatch type of p with rng _ ?j => keep constr:(rng_sqrt _ _ p (eq_refl true <: inn j = true)) end
    | sin ?x => let p := ev x in
        lazymatch type of p with rng _ ?j => keep constr:(rng_sin _ _ p (eq_refl true <: fits j = true)) end
    | cos ?x => let p := ev x in
        lazymatch type of p with rng _ ?j => keep constr:(rng_cos _ _ p (eq_refl true <: fits j = true)) end
    | atan ?x => let p := ev x in
        lazymatch type of p with rng _ ?i => let g := eval vm_compute in (guess_atan i) in
          lazymatch g with (?l, ?h) => keep constr:(rng_atan _ _ l h p (eq_refl true <: atan_ok i l h = true)) end end
    | Rabs ?x => let p := ev x in keep constr:(rng_abs _ _ p)
    | Q2R (?n # ?d) => let p := ev (IZR n / IZR (Zpos d)) in keep constr:(rng_q n d _ p)
    | Rpower ?x (3 / 2) => let q := ev x in let p := ev (x * sqrt x) in
        lazymatch type of q with rng _ ?i => keep constr:(rng_pow32 x _ _ q (eq_refl true <: ipos i = true) p) end
    | IZR (Zfloor ?x) => let p := ev x in
        lazymatch type of p with rng _ ?i => let n := eval vm_compute in (ifloor i) in keep constr:(rng_floor x _ n p (eq_refl true <: floor_ok i n = true)) end
    | IZR (Ztrunc ?x) => let p := ev x in
        lazymatch type of p with rng _ ?i => let n := eval vm_compute in (itrunc i) in keep constr:(rng_trunc x _ n p (eq_refl true <: trunc_ok i n = true)) end
    | PI => keep constr:(rng_PI)
    | IZR ?n => keep constr:(rng_z n)
    | _ => fail "no rule for" e
    end end.
Ltac bound e H := let p := ev e in pose proof p as H.
Ltac num_le := lazymatch goal with |- ?a <= ?b =>
  let p := ev a in let q := ev b in lazymatch type of p with rng _ ?i => lazymatch type of q with rng _ ?j =>
    exact (rng_le _ _ _ _ p q (eq_refl true <: (snd i <=? fst j)%Z = true)) end end end.
Ltac num_lt := lazymatch goal with |- ?a < ?b =>
  let p := ev a in let q := ev b in lazymatch type of p with rng _ ?i => lazymatch type of q with rng _ ?j =>
    exact (rng_lt _ _ _ _ p q (eq_refl true <: (snd i <? fst j)%Z = true)) end end end.
Ltac num_nz := lazymatch goal with |- ?a <> 0 =>
  let p := ev a in lazymatch type of p with rng _ ?i =>
    exact (rng_nz _ _ p (eq_refl true <: (ipos i || ineg i)%bool = true)) end end.
Example num_case : Rabs (sin (13 / 10) - 96355819 / 100000000) < 1 / 100000000 /\ atan 2 < 110714871780 / 100000000000.
Proof. split; [apply Rabs_def1|]. num_lt. num_lt. num_lt. Qed.
