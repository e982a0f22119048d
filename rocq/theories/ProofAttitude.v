(** Lemmas about the Attitude model. *)
From Coq Require Import Reals List Lra Lia Psatz.
From Verif Require Import Base BaseVec SpecRot ModelAttitude ProofVec.
Import ListNotations.
Open Scope R_scope.

(** ** Quaternion to DCM *)

Definition n2 (a b c d : R) := (a * a) + (b * b) + (c * c) + (d * d).

(** The closed form of the matrix, used only inside proofs. *)
Definition dcm (a b c d : R) : mat3 :=
  let k := / n2 a b c d in
  M3 ((a*a + b*b - c*c - d*d) * k) (2 * (b*c + a*d) * k) (2 * (b*d - a*c) * k)
     (2 * (b*c - a*d) * k) ((a*a - b*b + c*c - d*d) * k) (2 * (c*d + a*b) * k)
     (2 * (b*d + a*c) * k) (2 * (c*d - a*b) * k) ((a*a - b*b - c*c + d*d) * k).

Lemma dcm_entries_ok a b c d : n2 a b c d <> 0 -> dcm_entries a b c d = Ret (dcm a b c d).
Proof.
  intros H. unfold dcm_entries. fold (n2 a b c d). unfold bind.
  rewrite !Rdivc_ok by exact H. reflexivity.
Qed.
Lemma dcm_entries_zero a b c d : n2 a b c d = 0 -> dcm_entries a b c d = NonFinite.
Proof.
  intros H. unfold dcm_entries. fold (n2 a b c d). rewrite H. now rewrite Rdivc_0.
Qed.
Lemma n2_pos a b c d : [a; b; c; d] <> [0; 0; 0; 0] -> 0 < n2 a b c d.
Proof.
  intros H; unfold n2.
  destruct (Req_dec a 0) as [->|]; [|nra].
  destruct (Req_dec b 0) as [->|]; [|nra].
  destruct (Req_dec c 0) as [->|]; [|nra].
  destruct (Req_dec d 0) as [->|]; [now elim H|nra].
Qed.
Lemma n2_nz a b c d : [a; b; c; d] <> [0; 0; 0; 0] -> n2 a b c d <> 0.
Proof. intros H. apply n2_pos in H. lra. Qed.

Lemma dcm_rotation a b c d : n2 a b c d <> 0 -> is_rotation (dcm a b c d).
Proof.
  intros H. apply rotation_of_matrix.
  - unfold dcm; unvec. unfold n2 in *. apply m3_eq; field; exact H.
  - unfold dcm; unvec. unfold n2 in *. field; exact H.
Qed.

Lemma dcm_qframe a b c d v : n2 a b c d <> 0 ->
  mvmul (dcm a b c d) v = qframe (a, V3 b c d) v.
Proof.
  intros H. destruct v as [x y z]. unfold dcm, qframe, qmul, qconj, qnorm2; cbn [fst snd]; unvec.
  unfold n2 in *. apply v3_eq; field; lra.
Qed.

Lemma MX_of_mat3_inj A B : MX_of_mat3 A = MX_of_mat3 B -> A = B.
Proof.
  intros H. injection H as H.
  pose proof (fun i j => f_equal (fun g : nat -> nat -> R => g i j) H) as E; cbn in E.
  destruct A, B; cbn in *. apply m3_eq.
  exact (E 0 0)%nat. exact (E 0 1)%nat. exact (E 0 2)%nat.
  exact (E 1 0)%nat. exact (E 1 1)%nat. exact (E 1 2)%nat.
  exact (E 2 0)%nat. exact (E 2 1)%nat. exact (E 2 2)%nat.
Qed.
Lemma Ret_true_inj {A} (x y : A) : Ret (true, x) = Ret (true, y) -> x = y.
Proof. congruence. Qed.
Lemma mat3_of_MX_of_mat3 A : mat3_of_MX (MX_of_mat3 A) = A.
Proof. now destruct A. Qed.

Lemma computeDcm_ok q0 q1 q2 q3 M : [q0;q1;q2;q3] <> [0;0;0;0] ->
  mx_rows M = 3%nat -> mx_cols M = 3%nat ->
  computeDcmFromQuaternion [q0;q1;q2;q3] M = Ret (true, MX_of_mat3 (dcm q0 q1 q2 q3)).
Proof.
  intros H Hr Hc. unfold computeDcmFromQuaternion. rewrite Hr, Hc; cbn.
  now rewrite dcm_entries_ok by now apply n2_nz.
Qed.

Lemma dcm_from_quaternion_rotation : forall q0 q1 q2 q3 M,
  [q0;q1;q2;q3] <> [0;0;0;0] -> mx_rows M = 3%nat -> mx_cols M = 3%nat ->
  exists R, computeDcmFromQuaternion [q0;q1;q2;q3] M = Ret (true, MX_of_mat3 R) /\
    is_rotation R /\ (mmul R (mtr R) = m3id /\ mmul (mtr R) R = m3id /\ mdet R = 1) /\
    (forall v, mvmul R v = qframe (q0, V3 q1 q2 q3) v).
Proof.
  intros. exists (dcm q0 q1 q2 q3). pose proof (n2_nz _ _ _ _ H).
  assert (is_rotation (dcm q0 q1 q2 q3)) by now apply dcm_rotation.
  split; [|split; [|split]]; auto.
  - now apply computeDcm_ok.
  - now apply rotation_matrix.
  - intros; now apply dcm_qframe.
Qed.

Lemma dcm_from_zero_quaternion : forall M,
  mx_rows M = 3%nat -> mx_cols M = 3%nat ->
  computeDcmFromQuaternion [0;0;0;0] M = NonFinite.
Proof.
  intros M Hr Hc. unfold computeDcmFromQuaternion. rewrite Hr, Hc; cbn.
  rewrite dcm_entries_zero; [reflexivity|unfold n2; ring].
Qed.

(** ** Scale invariance and injectivity up to scale *)

Lemma dcm_scale k a b c d : k <> 0 -> n2 a b c d <> 0 ->
  dcm (k*a) (k*b) (k*c) (k*d) = dcm a b c d.
Proof.
  intros Hk H. unfold dcm, n2 in *.
  assert (k*a*(k*a) + k*b*(k*b) + k*c*(k*c) + k*d*(k*d) <> 0).
  { replace (k*a*(k*a) + k*b*(k*b) + k*c*(k*c) + k*d*(k*d)) with (k*k*(a*a+b*b+c*c+d*d)) by ring.
    apply Rmult_integral_contrapositive_currified; [|exact H].
    now apply Rmult_integral_contrapositive_currified. }
  apply m3_eq; field; split; auto.
Qed.

(* the products q_i q_j / |q|^2 can be read off the matrix *)
Lemma dcm_products a b c d : n2 a b c d <> 0 ->
  let R := dcm a b c d in let n := n2 a b c d in
  4 * (a*a) = (1 + m11 R + m22 R + m33 R) * n /\
  4 * (b*b) = (1 + m11 R - m22 R - m33 R) * n /\
  4 * (c*c) = (1 - m11 R + m22 R - m33 R) * n /\
  4 * (d*d) = (1 - m11 R - m22 R + m33 R) * n /\
  4 * (a*b) = (m23 R - m32 R) * n /\
  4 * (a*c) = (m31 R - m13 R) * n /\
  4 * (a*d) = (m12 R - m21 R) * n /\
  4 * (b*c) = (m12 R + m21 R) * n /\
  4 * (b*d) = (m13 R + m31 R) * n /\
  4 * (c*d) = (m23 R + m32 R) * n.
Proof.
  intros H R n. unfold R, n, dcm, n2 in *; cbn [m11 m12 m13 m21 m22 m23 m31 m32 m33].
  repeat split; field; exact H.
Qed.

Lemma dcm_same a b c d a' b' c' d' : n2 a b c d <> 0 -> n2 a' b' c' d' <> 0 ->
  dcm a b c d = dcm a' b' c' d' ->
  exists k, k <> 0 /\ a = k * a' /\ b = k * b' /\ c = k * c' /\ d = k * d'.
Proof.
  intros H H' E.
  pose proof (dcm_products _ _ _ _ H) as P. pose proof (dcm_products _ _ _ _ H') as P'.
  cbv zeta in P, P'. rewrite E in P.
  set (R := dcm a' b' c' d') in *. clearbody R.
  destruct P as (P1&P2&P3&P4&P5&P6&P7&P8&P9&P10).
  destruct P' as (Q1&Q2&Q3&Q4&Q5&Q6&Q7&Q8&Q9&Q10).
  set (n := n2 a b c d) in *. set (n' := n2 a' b' c' d') in *.
  assert (Hn : 0 < n) by (unfold n, n2 in *; nra).
  assert (Hn' : 0 < n') by (unfold n', n2 in *; nra).
  assert (forall x y x' y' m, 4*(x*y) = m * n -> 4*(x'*y') = m * n' -> x*y*n' = x'*y'*n) as X.
  { intros. apply Rmult_eq_reg_l with 4; [|lra].
    transitivity (m*n*n'); [nra|]. transitivity (n * (4 * (x'*y'))); [nra|ring]. }
  pose proof (X _ _ _ _ _ P1 Q1) as X1. pose proof (X _ _ _ _ _ P2 Q2) as X2.
  pose proof (X _ _ _ _ _ P3 Q3) as X3. pose proof (X _ _ _ _ _ P4 Q4) as X4.
  pose proof (X _ _ _ _ _ P5 Q5) as X5. pose proof (X _ _ _ _ _ P6 Q6) as X6.
  pose proof (X _ _ _ _ _ P7 Q7) as X7. pose proof (X _ _ _ _ _ P8 Q8) as X8.
  pose proof (X _ _ _ _ _ P9 Q9) as X9. pose proof (X _ _ _ _ _ P10 Q10) as X10.
  clear P1 P2 P3 P4 P5 P6 P7 P8 P9 P10 Q1 Q2 Q3 Q4 Q5 Q6 Q7 Q8 Q9 Q10 X E.
  set (s := a*a' + b*b' + c*c' + d*d').
  (* x_i * s * n' = x_i' * n * n' *)
  assert (Ya : a * s = a' * n).
  { apply Rmult_eq_reg_r with n'; [|lra].
    transitivity (a'*(a*a*n') + b'*(a*b*n') + c'*(a*c*n') + d'*(a*d*n')); [unfold s; ring|].
    rewrite X1, X5, X6, X7. unfold n', n2; ring. }
  assert (Yb : b * s = b' * n).
  { apply Rmult_eq_reg_r with n'; [|lra].
    transitivity (a'*(a*b*n') + b'*(b*b*n') + c'*(b*c*n') + d'*(b*d*n')); [unfold s; ring|].
    rewrite X2, X5, X8, X9. unfold n', n2; ring. }
  assert (Yc : c * s = c' * n).
  { apply Rmult_eq_reg_r with n'; [|lra].
    transitivity (a'*(a*c*n') + b'*(b*c*n') + c'*(c*c*n') + d'*(c*d*n')); [unfold s; ring|].
    rewrite X3, X6, X8, X10. unfold n', n2; ring. }
  assert (Yd : d * s = d' * n).
  { apply Rmult_eq_reg_r with n'; [|lra].
    transitivity (a'*(a*d*n') + b'*(b*d*n') + c'*(c*d*n') + d'*(d*d*n')); [unfold s; ring|].
    rewrite X4, X7, X9, X10. unfold n', n2; ring. }
  assert (Hs : s * s = n * n').
  { transitivity (a'*(a*s) + b'*(b*s) + c'*(c*s) + d'*(d*s)); [unfold s; ring|].
    rewrite Ya, Yb, Yc, Yd. unfold n', n2; ring. }
  assert (s <> 0) by (intros Z; rewrite Z in Hs; nra).
  exists (n / s). split; [|repeat split].
  - unfold Rdiv. apply Rmult_integral_contrapositive_currified; [lra|now apply Rinv_neq_0_compat].
  - apply Rmult_eq_reg_r with s; auto. rewrite Ya. field; auto.
  - apply Rmult_eq_reg_r with s; auto. rewrite Yb. field; auto.
  - apply Rmult_eq_reg_r with s; auto. rewrite Yc. field; auto.
  - apply Rmult_eq_reg_r with s; auto. rewrite Yd. field; auto.
Qed.

Lemma dcm_equal_iff_proportional : forall p0 p1 p2 p3 q0 q1 q2 q3 M M',
  [p0;p1;p2;p3] <> [0;0;0;0] -> [q0;q1;q2;q3] <> [0;0;0;0] ->
  mx_rows M = 3%nat -> mx_cols M = 3%nat -> mx_rows M' = 3%nat -> mx_cols M' = 3%nat ->
  (computeDcmFromQuaternion [p0;p1;p2;p3] M = computeDcmFromQuaternion [q0;q1;q2;q3] M' <->
   exists k, [p0;p1;p2;p3] = map (Rmult k) [q0;q1;q2;q3]).
Proof.
  intros. rewrite !computeDcm_ok by auto. split.
  - intros E. apply Ret_true_inj, MX_of_mat3_inj in E.
    destruct (dcm_same _ _ _ _ _ _ _ _ (n2_nz _ _ _ _ H) (n2_nz _ _ _ _ H0) E)
      as (k & _ & -> & -> & -> & ->). now exists k.
  - intros (k & E). cbn in E. injection E as -> -> -> ->. do 3 f_equal.
    apply dcm_scale; [|now apply n2_nz].
    intros ->. apply H. now rewrite !Rmult_0_l.
Qed.

(** ** Quaternion-equivalent matrix *)

Lemma cons_eq {A} (x y : A) l l' : x = y -> l = l' -> x :: l = y :: l'.
Proof. congruence. Qed.
Ltac list_ring := repeat (apply cons_eq; [ring|]); reflexivity.
Ltac list_field := repeat (apply cons_eq; [field; lra|]); reflexivity.

Lemma quat_equiv_hamilton p0 p1 p2 p3 q0 q1 q2 q3 :
  mx_apply (quat_equiv p0 p1 p2 p3) [q0;q1;q2;q3] =
  qlist (qmul (p0, V3 p1 p2 p3) (q0, V3 q1 q2 q3)).
Proof.
  unfold mx_apply, qlist, qmul; cbn. unvec. list_ring.
Qed.

Lemma n2_mul p q : forall r, r = qmul p q -> qnorm2 r = qnorm2 p * qnorm2 q.
Proof. destruct p as [p0 [p1 p2 p3]], q as [q0 [q1 q2 q3]]; intros r ->; unfold qnorm2, qmul; cbn; unvec; ring. Qed.

Lemma dcm_mul p0 p1 p2 p3 q0 q1 q2 q3 :
  n2 p0 p1 p2 p3 <> 0 -> n2 q0 q1 q2 q3 <> 0 ->
  let r := qmul (p0, V3 p1 p2 p3) (q0, V3 q1 q2 q3) in
  dcm (fst r) (vx (snd r)) (vy (snd r)) (vz (snd r)) =
  mmul (dcm q0 q1 q2 q3) (dcm p0 p1 p2 p3).
Proof.
  intros Hp Hq r.
  assert (Hr : n2 (fst r) (vx (snd r)) (vy (snd r)) (vz (snd r)) = n2 p0 p1 p2 p3 * n2 q0 q1 q2 q3).
  { unfold r, n2, qmul; cbn; unvec; ring. }
  unfold dcm. rewrite Hr. unfold r, qmul; cbn; unvec.
  rewrite Rinv_mult.
  set (k := / n2 p0 p1 p2 p3). set (l := / n2 q0 q1 q2 q3).
  apply m3_eq; ring.
Qed.

Lemma quaternion_product_dcm : forall p0 p1 p2 p3 q0 q1 q2 q3 M M4,
  [p0;p1;p2;p3] <> [0;0;0;0] -> [q0;q1;q2;q3] <> [0;0;0;0] ->
  mx_rows M = 3%nat -> mx_cols M = 3%nat -> mx_rows M4 = 4%nat -> mx_cols M4 = 4%nat ->
  exists Q Rp Rq,
    buildQuaternionEquivalent [p0;p1;p2;p3] M4 = Ret (true, Q) /\
    computeDcmFromQuaternion [p0;p1;p2;p3] M = Ret (true, MX_of_mat3 Rp) /\
    computeDcmFromQuaternion [q0;q1;q2;q3] M = Ret (true, MX_of_mat3 Rq) /\
    computeDcmFromQuaternion (mx_apply Q [q0;q1;q2;q3]) M = Ret (true, MX_of_mat3 (mmul Rq Rp)).
Proof.
  intros. exists (quat_equiv p0 p1 p2 p3), (dcm p0 p1 p2 p3), (dcm q0 q1 q2 q3).
  split; [|split; [|split]].
  - unfold buildQuaternionEquivalent. now rewrite H3, H4.
  - now apply computeDcm_ok.
  - now apply computeDcm_ok.
  - rewrite quat_equiv_hamilton. unfold qlist. rewrite computeDcm_ok; auto.
    + now rewrite dcm_mul by now apply n2_nz.
    + pose proof (n2_pos _ _ _ _ H) as Np. pose proof (n2_pos _ _ _ _ H0) as Nq.
      pose proof (n2_mul (p0, V3 p1 p2 p3) (q0, V3 q1 q2 q3) _ eq_refl) as E.
      destruct (qmul (p0, V3 p1 p2 p3) (q0, V3 q1 q2 q3)) as [r0 [r1 r2 r3]]; cbn [fst snd vx vy vz].
      intros Z. injection Z as -> -> -> ->.
      unfold qnorm2, dot in E; cbn in E. unfold n2 in *. nra.
Qed.

Lemma quaternion_equivalent_hamilton : forall p0 p1 p2 p3 M,
  mx_rows M = 4%nat -> mx_cols M = 4%nat ->
  exists Q, buildQuaternionEquivalent [p0;p1;p2;p3] M = Ret (true, Q) /\
   (forall q0 q1 q2 q3, mx_apply Q [q0;q1;q2;q3] =
        qlist (qmul (p0, V3 p1 p2 p3) (q0, V3 q1 q2 q3))) /\
   (forall i j, (i < 4)%nat -> (j < 4)%nat ->
      fold_right Rplus 0 (map (fun k => mx_at Q k i * mx_at Q k j) (seq 0 4)) =
      if Nat.eqb i j then p0*p0 + p1*p1 + p2*p2 + p3*p3 else 0).
Proof.
  intros p0 p1 p2 p3 M Hr Hc. exists (quat_equiv p0 p1 p2 p3). split; [|split].
  - unfold buildQuaternionEquivalent. now rewrite Hr, Hc.
  - intros; apply quat_equiv_hamilton.
  - intros i j Hi Hj.
    do 4 (destruct i as [|i]; [do 4 (destruct j as [|j]; [cbn; ring|]); lia|]); lia.
Qed.

Lemma quaternion_equivalent_multiplicative : forall p0 p1 p2 p3 q0 q1 q2 q3 v0 v1 v2 v3 M Qp Qq Qpq,
  buildQuaternionEquivalent [p0;p1;p2;p3] M = Ret (true, Qp) ->
  buildQuaternionEquivalent [q0;q1;q2;q3] M = Ret (true, Qq) ->
  buildQuaternionEquivalent (mx_apply Qp [q0;q1;q2;q3]) M = Ret (true, Qpq) ->
  mx_apply Qpq [v0;v1;v2;v3] = mx_apply Qp (mx_apply Qq [v0;v1;v2;v3]).
Proof.
  intros *. unfold buildQuaternionEquivalent at 1 2.
  destruct (Nat.eqb (mx_rows M) 4 && Nat.eqb (mx_cols M) 4)%bool eqn:E; [|discriminate].
  intros H1 H2. injection H1 as <-. injection H2 as <-.
  rewrite quat_equiv_hamilton. unfold qlist, buildQuaternionEquivalent. rewrite E.
  intros H3; injection H3 as <-. rewrite !quat_equiv_hamilton. unfold qlist.
  rewrite !quat_equiv_hamilton. unfold qlist, qmul; cbn; unvec. list_ring.
Qed.

(** ** DCM to quaternion *)

Ltac bool_split :=
  match goal with
  | |- context [Rltb' ?x ?y] => let E := fresh "L" in destruct (Rltb' x y) eqn:E;
       [apply Rltb'_iff in E|apply Rltb'_niff in E]; cbn [andb]
  end.

Lemma sqrt_sq_cases x : (0 <= x /\ sqrt (x * x) = x) \/ (x < 0 /\ sqrt (x * x) = - x).
Proof.
  destruct (Rle_dec 0 x); [left|right]; split; try lra.
  - now apply sqrt_square.
  - replace (x * x) with ((-x) * (-x)) by ring. apply sqrt_square; lra.
Qed.

Lemma quat_of_dcm_dcm a b c d : n2 a b c d = 1 ->
  (tie a b c d /\ quat_of_dcm (dcm a b c d) = NonFinite) \/
  (~ tie a b c d /\ (quat_of_dcm (dcm a b c d) = Ret [a;b;c;d] \/
                     quat_of_dcm (dcm a b c d) = Ret [-a;-b;-c;-d])).
Proof.
  intros Hn. assert (Hnz : n2 a b c d <> 0) by lra.
  pose proof (dcm_products a b c d Hnz) as P; cbv zeta in P. rewrite Hn in P.
  destruct P as (P1&P2&P3&P4&P5&P6&P7&P8&P9&P10).
  unfold quat_of_dcm. set (R := dcm a b c d) in *. clearbody R.
  replace (0.25 * (1 + m11 R + m22 R + m33 R)) with (a*a) by lra.
  replace (0.25 * (1 + m11 R - m22 R - m33 R)) with (b*b) by lra.
  replace (0.25 * (1 - m11 R + m22 R - m33 R)) with (c*c) by lra.
  replace (0.25 * (1 - m11 R - m22 R + m33 R)) with (d*d) by lra.
  replace (m23 R - m32 R) with (4*(a*b)) by lra.
  replace (m31 R - m13 R) with (4*(a*c)) by lra.
  replace (m12 R - m21 R) with (4*(a*d)) by lra.
  replace (m12 R + m21 R) with (4*(b*c)) by lra.
  replace (m31 R + m13 R) with (4*(b*d)) by lra.
  replace (m23 R + m32 R) with (4*(c*d)) by lra.
  clear P1 P2 P3 P4 P5 P6 P7 P8 P9 P10 R. unfold n2 in Hn.
  assert (A0 : 0 <= a*a) by nra. assert (B0 : 0 <= b*b) by nra.
  assert (C0 : 0 <= c*c) by nra. assert (D0 : 0 <= d*d) by nra.
  rewrite !sqrtc_ok by assumption.
  assert (Fin : forall x, 0 < x*x -> forall u v w y : R,
    (sqrt (x*x) = x -> 4*x <> 0 -> Rdivc 1 (4 * x) = Ret (1/(4*x)))) by
    (intros; apply Rdivc_ok; auto).
  destruct (andb (andb (Rltb' (b*b) (a*a)) (Rltb' (c*c) (a*a))) (Rltb' (d*d) (a*a))) eqn:T1.
  { apply Bool.andb_true_iff in T1 as [T1 T13]. apply Bool.andb_true_iff in T1 as [T11 T12].
    apply Rltb'_iff in T11, T12, T13. right. split; [unfold tie; intuition lra|].
    assert (a <> 0) by (intros ->; lra). unfold bind.
    destruct (sqrt_sq_cases a) as [[? ->]|[? ->]]; rewrite Rdivc_ok by lra;
      [left|right]; f_equal; list_field. }
  destruct (andb (andb (Rltb' (a*a) (b*b)) (Rltb' (c*c) (b*b))) (Rltb' (d*d) (b*b))) eqn:T2.
  { apply Bool.andb_true_iff in T2 as [T2 T23]. apply Bool.andb_true_iff in T2 as [T21 T22].
    apply Rltb'_iff in T21, T22, T23. right. split; [unfold tie; intuition lra|].
    assert (b <> 0) by (intros ->; lra). unfold bind.
    destruct (sqrt_sq_cases b) as [[? ->]|[? ->]]; rewrite Rdivc_ok by lra;
      [left|right]; f_equal; list_field. }
  destruct (andb (andb (Rltb' (a*a) (c*c)) (Rltb' (b*b) (c*c))) (Rltb' (d*d) (c*c))) eqn:T3.
  { apply Bool.andb_true_iff in T3 as [T3 T33]. apply Bool.andb_true_iff in T3 as [T31 T32].
    apply Rltb'_iff in T31, T32, T33. right. split; [unfold tie; intuition lra|].
    assert (c <> 0) by (intros ->; lra). unfold bind.
    destruct (sqrt_sq_cases c) as [[? ->]|[? ->]]; rewrite Rdivc_ok by lra;
      [left|right]; f_equal; list_field. }
  assert (N1 : a*a <= b*b \/ a*a <= c*c \/ a*a <= d*d).
  { apply Bool.andb_false_iff in T1 as [T1|T1]; [apply Bool.andb_false_iff in T1 as [T1|T1]|];
      apply Rltb'_niff in T1; tauto. }
  assert (N2 : b*b <= a*a \/ b*b <= c*c \/ b*b <= d*d).
  { apply Bool.andb_false_iff in T2 as [T2|T2]; [apply Bool.andb_false_iff in T2 as [T2|T2]|];
      apply Rltb'_niff in T2; tauto. }
  assert (N3 : c*c <= a*a \/ c*c <= b*b \/ c*c <= d*d).
  { apply Bool.andb_false_iff in T3 as [T3|T3]; [apply Bool.andb_false_iff in T3 as [T3|T3]|];
      apply Rltb'_niff in T3; tauto. }
  destruct (Req_dec d 0) as [Z|Z].
  - left. subst d. split; [unfold tie; split; [reflexivity|lra]|].
    unfold bind. rewrite Rmult_0_l, sqrt_0, Rmult_0_r, Rdivc_0. reflexivity.
  - right. split; [unfold tie; tauto|]. unfold bind.
    destruct (sqrt_sq_cases d) as [[? ->]|[? ->]]; rewrite Rdivc_ok by lra;
      [left|right]; f_equal; list_field.
Qed.

(** Every rotation matrix comes from a unit quaternion. *)
Lemma rotation_entries A : is_rotation A ->
  (m11 A = m22 A * m33 A - m23 A * m32 A) /\ (m12 A = m23 A * m31 A - m21 A * m33 A) /\
  (m13 A = m21 A * m32 A - m22 A * m31 A) /\ (m21 A = m13 A * m32 A - m12 A * m33 A) /\
  (m22 A = m11 A * m33 A - m13 A * m31 A) /\ (m23 A = m12 A * m31 A - m11 A * m32 A) /\
  (m31 A = m12 A * m23 A - m13 A * m22 A) /\ (m32 A = m13 A * m21 A - m11 A * m23 A) /\
  (m33 A = m11 A * m22 A - m12 A * m21 A).
Proof.
  intros H. apply rotation_matrix in H as (H1 & _ & H3).
  pose proof (orth_det_adj A H1 H3) as E. destruct A; unvec. injection E; intros. repeat split; lra.
Qed.

Lemma dcm_surjective A : is_rotation A -> exists a b c d, n2 a b c d = 1 /\ dcm a b c d = A.
Proof.
  intros HR. pose proof (rotation_entries A HR) as (C11&C12&C13&C21&C22&C23&C31&C32&C33).
  apply rotation_matrix in HR as (O1 & O2 & _).
  destruct A as [a11 a12 a13 a21 a22 a23 a31 a32 a33]; unvec.
  injection O1 as U11 U12 U13 _ U22 U23 _ _ U33.
  injection O2 as W11 W12 W13 _ W22 W23 _ _ W33.
  set (s0 := 1 + a11 + a22 + a33). set (s1 := 1 + a11 - a22 - a33).
  set (s2 := 1 - a11 + a22 - a33). set (s3 := 1 - a11 - a22 + a33).
  assert (E01 : (a23-a32)*(a23-a32) = s0*s1) by (unfold s0, s1; lra).
  assert (E02 : (a31-a13)*(a31-a13) = s0*s2) by (unfold s0, s2; lra).
  assert (E03 : (a12-a21)*(a12-a21) = s0*s3) by (unfold s0, s3; lra).
  assert (E12 : (a12+a21)*(a12+a21) = s1*s2) by (unfold s1, s2; lra).
  assert (E13 : (a13+a31)*(a13+a31) = s1*s3) by (unfold s1, s3; lra).
  assert (E23 : (a23+a32)*(a23+a32) = s2*s3) by (unfold s2, s3; lra).
  assert (F1 : (a23-a32)*(a31-a13) = s0*(a12+a21)) by (unfold s0; lra).
  assert (F2 : (a23-a32)*(a12-a21) = s0*(a13+a31)) by (unfold s0; lra).
  assert (F3 : (a31-a13)*(a12-a21) = s0*(a23+a32)) by (unfold s0; lra).
  assert (F4 : (a23-a32)*(a12+a21) = s1*(a31-a13)) by (unfold s1; lra).
  assert (F5 : (a23-a32)*(a13+a31) = s1*(a12-a21)) by (unfold s1; lra).
  assert (F6 : (a12+a21)*(a13+a31) = s1*(a23+a32)) by (unfold s1; lra).
  assert (F7 : (a31-a13)*(a12+a21) = s2*(a23-a32)) by (unfold s2; lra).
  assert (F8 : (a31-a13)*(a23+a32) = s2*(a12-a21)) by (unfold s2; lra).
  assert (F9 : (a12+a21)*(a23+a32) = s2*(a13+a31)) by (unfold s2; lra).
  assert (F10 : (a12-a21)*(a13+a31) = s3*(a23-a32)) by (unfold s3; lra).
  assert (F11 : (a12-a21)*(a23+a32) = s3*(a31-a13)) by (unfold s3; lra).
  assert (F12 : (a13+a31)*(a23+a32) = s3*(a12+a21)) by (unfold s3; lra).
  assert (S : s0 + s1 + s2 + s3 = 4) by (unfold s0, s1, s2, s3; lra).
  (* generic finish: given the ten products q_i q_j the entries follow *)
  assert (FIN : forall a b c d, 4*(a*a) = s0 -> 4*(b*b) = s1 -> 4*(c*c) = s2 -> 4*(d*d) = s3 ->
    4*(a*b) = a23-a32 -> 4*(a*c) = a31-a13 -> 4*(a*d) = a12-a21 ->
    4*(b*c) = a12+a21 -> 4*(b*d) = a13+a31 -> 4*(c*d) = a23+a32 ->
    n2 a b c d = 1 /\ dcm a b c d = M3 a11 a12 a13 a21 a22 a23 a31 a32 a33).
  { intros a b c d Ha Hb Hc Hd. intros.
    assert (N : n2 a b c d = 1) by (unfold n2; lra).
    split; [exact N|]. unfold dcm. rewrite N, Rinv_1. unfold s0, s1, s2, s3 in *.
    apply m3_eq; lra. }
  clear U11 U12 U13 U22 U23 U33 W11 W12 W13 W22 W23 W33 C11 C12 C13 C21 C22 C23 C31 C32 C33.
  clearbody s0 s1 s2 s3.
  assert (DIV : forall s q x y z, 0 < s -> q = sqrt s / 2 -> x * y = s * z ->
      4 * (x / (4*q) * (y / (4*q))) = z).
  { intros s q x y z Hs -> E. pose proof (sqrt_lt_R0 s Hs).
    assert (SS : sqrt s * sqrt s = s) by (apply sqrt_sqrt; lra).
    replace (4 * (x / (4*(sqrt s/2)) * (y / (4*(sqrt s/2))))) with (x*y / (sqrt s * sqrt s)) by (field; lra).
    rewrite SS, E. field; lra. }
  assert (SQ : forall s, 0 < s -> 4 * (sqrt s / 2 * (sqrt s / 2)) = s).
  { intros s Hs. assert (SS : sqrt s * sqrt s = s) by (apply sqrt_sqrt; lra). lra. }
  assert (LIN : forall s x, 0 < s -> 4 * (sqrt s / 2 * (x / (4 * (sqrt s / 2)))) = x).
  { intros s x Hs. pose proof (sqrt_lt_R0 s Hs). field; lra. }
  assert (LIN' : forall s x, 0 < s -> 4 * (x / (4 * (sqrt s / 2)) * (sqrt s / 2)) = x).
  { intros s x Hs. pose proof (sqrt_lt_R0 s Hs). field; lra. }
  destruct (Rlt_dec 0 s0) as [P|P].
  { exists (sqrt s0 / 2), ((a23-a32)/(4*(sqrt s0/2))), ((a31-a13)/(4*(sqrt s0/2))), ((a12-a21)/(4*(sqrt s0/2))).
    apply FIN; auto; eapply DIV; eauto; lra. }
  destruct (Rlt_dec 0 s1) as [P1|P1].
  { exists ((a23-a32)/(4*(sqrt s1/2))), (sqrt s1 / 2), ((a12+a21)/(4*(sqrt s1/2))), ((a13+a31)/(4*(sqrt s1/2))).
    apply FIN; auto; eapply DIV; eauto; lra. }
  destruct (Rlt_dec 0 s2) as [P2|P2].
  { exists ((a31-a13)/(4*(sqrt s2/2))), ((a12+a21)/(4*(sqrt s2/2))), (sqrt s2 / 2), ((a23+a32)/(4*(sqrt s2/2))).
    apply FIN; auto; eapply DIV; eauto; lra. }
  assert (P3 : 0 < s3) by lra.
  { exists ((a12-a21)/(4*(sqrt s3/2))), ((a13+a31)/(4*(sqrt s3/2))), ((a23+a32)/(4*(sqrt s3/2))), (sqrt s3 / 2).
    apply FIN; auto; eapply DIV; eauto; lra. }
Qed.
