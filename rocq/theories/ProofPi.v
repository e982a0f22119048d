(** Rational bounds on pi from Machin's formula (the standard library's
    [PI_2_3_7_ineq]), evaluated in Q. *)
From Coq Require Import Reals Lra Lia Machin ZArith QArith Qreals Qpower.
Open Scope R_scope.

Definition qterm (n : nat) : Q :=
  let m := Z.of_nat (2 * n + 1) in
  (2 * ((1 # 3)^m * / inject_Z m) + ((1 # 7)^m * / inject_Z m))%Q.
Fixpoint qsum (n : nat) : Q :=
  match n with
  | O => Qred (qterm O)
  | S k => Qred (qsum k + (if Nat.even n then qterm n else - qterm n))
  end.

Lemma Q2R_pow (q : Q) (n : nat) : Q2R (q ^ Z.of_nat n) = Q2R q ^ n.
Proof.
  induction n.
  - cbn. unfold Q2R. cbn. lra.
  - destruct n.
    + cbn. rewrite Rmult_1_r. reflexivity.
    + replace (Z.of_nat (S (S n))) with (Z.of_nat (S n) + 1)%Z by lia.
      cbn [pow]. change (Q2R q * Q2R q ^ n) with (Q2R q ^ S n). rewrite <- IHn.
      rewrite <- Q2R_mult. apply Qeq_eqR.
      assert (H : (0 < Z.of_nat (S n))%Z) by lia.
      destruct (Z.of_nat (S n)) as [|p|p]; try lia.
      change (Z.pos p + 1)%Z with (Z.pos (p + 1)). cbn [Qpower].
      rewrite Qpower_plus_positive. cbn. ring.
Qed.
Lemma Q2R_injZ z : Q2R (inject_Z z) = IZR z.
Proof. unfold Q2R; cbn. field. Qed.

Lemma qterm_ok n : Q2R (qterm n) = PI_2_3_7_tg n.
Proof.
  unfold qterm, PI_2_3_7_tg, Ratan_seq. rewrite Q2R_plus, !Q2R_mult, !Q2R_pow.
  assert (Z : ~ (inject_Z (Z.of_nat (2 * n + 1)) == 0)%Q).
  { intros E. apply Qeq_eqR in E. rewrite Q2R_injZ in E. unfold Q2R in E; cbn in E.
    apply (f_equal (fun x => x)) in E. rewrite Rmult_0_l in E. apply eq_IZR in E. lia. }
  rewrite !Q2R_inv, Q2R_injZ, <- INR_IZR_INZ by auto.
  replace (Q2R 2) with 2 by (unfold Q2R; cbn; field).
  replace (Q2R (1 # 3)) with (/ 3) by (unfold Q2R; cbn; field).
  replace (Q2R (1 # 7)) with (/ 7) by (unfold Q2R; cbn; field). reflexivity.
Qed.
Lemma qsum_ok n : Q2R (qsum n) = sum_f_R0 (tg_alt PI_2_3_7_tg) n.
Proof.
  induction n.
  - cbn [qsum sum_f_R0]. rewrite (Qeq_eqR _ _ (Qred_correct _)), qterm_ok. unfold tg_alt. cbn. ring.
  - cbn [qsum sum_f_R0]. rewrite (Qeq_eqR _ _ (Qred_correct _)), Q2R_plus, IHn. f_equal. unfold tg_alt.
    destruct (Nat.even (S n)) eqn:E.
    + rewrite qterm_ok. apply Nat.even_spec in E. destruct E as [k ->]. rewrite pow_1_even. ring.
    + rewrite Q2R_opp, qterm_ok.
      assert (O : Nat.odd (S n) = true) by (unfold Nat.odd; now rewrite E).
      apply Nat.odd_spec in O. destruct O as [k O]. rewrite O, Nat.add_1_r, pow_1_odd. ring.
Qed.

Lemma PI_lower q n : (q <= 4 * qsum (S (2 * n)))%Q -> Q2R q <= PI.
Proof.
  intros H. apply Qle_Rle in H. rewrite Q2R_mult, qsum_ok in H.
  replace (Q2R 4) with 4 in H by (unfold Q2R; cbn; field).
  destruct (PI_2_3_7_ineq n). lra.
Qed.
Lemma PI_upper q n : (4 * qsum (2 * n) <= q)%Q -> PI <= Q2R q.
Proof.
  intros H. apply Qle_Rle in H. rewrite Q2R_mult, qsum_ok in H.
  replace (Q2R 4) with 4 in H by (unfold Q2R; cbn; field).
  destruct (PI_2_3_7_ineq n). lra.
Qed.

Lemma PI_bounds : 3.14159265358979323 <= PI <= 3.14159265358979324.
Proof.
  split.
  - replace 3.14159265358979323 with (Q2R (314159265358979323 # 100000000000000000)) by (unfold Q2R; cbn; lra).
    apply (PI_lower _ 9). vm_compute. discriminate.
  - replace 3.14159265358979324 with (Q2R (314159265358979324 # 100000000000000000)) by (unfold Q2R; cbn; lra).
    apply (PI_upper _ 9). vm_compute. discriminate.
Qed.
