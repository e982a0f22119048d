(** Rounding of given numbers. *)
From Coq Require Import Reals ZArith Lra Lia Psatz.
From Flocq Require Import Core.
From Verif Require Import ModelDate ProofDate.
Open Scope R_scope.

Lemma grid64 e x : (-1074 <= e)%Z -> bpow radix2 (52 + e) <= Rabs (rnd64 x) -> exists m, rnd64 x = IZR m * bpow radix2 e.
Proof.
  intros He H. assert (F : generic_format radix2 (FLT_exp (-1074) 53) (rnd64 x)) by (apply generic_format_round; [apply FLT_exp_valid; reflexivity|apply valid_rnd_N]).
  set (y := rnd64 x) in *. unfold generic_format, F2R in F. cbn in F. set (m := Ztrunc (scaled_mantissa radix2 (FLT_exp (-1074) 53) y)) in *.
  set (f := cexp radix2 (FLT_exp (-1074) 53) y) in *. assert (Ee : (e <= f)%Z).
  { unfold f, cexp, FLT_exp. assert (52 + e + 1 <= mag radix2 y)%Z by (apply mag_ge_bpow; replace (52 + e + 1 - 1)%Z with (52 + e)%Z by lia; exact H). lia. }
  exists (m * 2 ^ (f - e))%Z. rewrite F, mult_IZR, Rmult_assoc. f_equal. rewrite (IZR_Zpower radix2) by lia. rewrite <- bpow_plus. f_equal. lia.
Qed.
Lemma format64 m e : (-1074 <= e)%Z -> (Z.abs m <= 2 ^ 53)%Z -> generic_format radix2 (FLT_exp (-1074) 53) (IZR m * bpow radix2 e).
Proof.
  intros He Hm. destruct (Z.eq_dec (Z.abs m) (2 ^ 53)) as [E|E].
  - assert (G : generic_format radix2 (FLT_exp (-1074) 53) (bpow radix2 (53 + e))) by (apply generic_format_bpow; unfold FLT_exp; lia).
    assert (P : IZR (2 ^ 53) * bpow radix2 e = bpow radix2 (53 + e)) by (rewrite (IZR_Zpower radix2) by lia; now rewrite <- bpow_plus).
    destruct (Z.abs_spec m) as [(_ & A)|(_ & A)]; rewrite A in E.
    + rewrite E, P. exact G.
    + assert (M : m = (- 2 ^ 53)%Z) by lia. rewrite M, opp_IZR, Ropp_mult_distr_l_reverse, P. now apply generic_format_opp.
  - apply generic_format_FLT. exists (Float radix2 m e); cbn; [reflexivity|lia|lia].
Qed.
Lemma rnd64_exact m e : (-1074 <= e)%Z -> (Z.abs m <= 2 ^ 53)%Z -> rnd64 (IZR m * bpow radix2 e) = IZR m * bpow radix2 e.
Proof. intros. apply round_generic; [apply valid_rnd_N|now apply format64]. Qed.
(** A number within half a unit in the last place of m * 2^e. *)
Lemma rnd64_is m e x : (-1074 <= e)%Z -> (2 ^ 52 < m <= 2 ^ 53)%Z -> Rabs (x - IZR m * bpow radix2 e) < bpow radix2 (e - 1) ->
  rnd64 x = IZR m * bpow radix2 e.
Proof.
  intros He Hm H. set (y := IZR m * bpow radix2 e) in *.
  assert (Fy : generic_format radix2 (FLT_exp (-1074) 53) y) by (apply format64; lia).
  destruct (round_N_pt radix2 (FLT_exp (-1074) 53) (fun z => negb (Z.even z)) x) as (_ & N). specialize (N y Fy). fold (rnd64 x) in N.
  assert (B : bpow radix2 e = 2 * bpow radix2 (e - 1)) by (change 2 with (bpow radix2 1); rewrite <- bpow_plus; f_equal; lia).
  assert (D : Rabs (rnd64 x - y) < bpow radix2 e).
  { replace (rnd64 x - y) with ((rnd64 x - x) + (x - y)) by ring. pose proof (Rabs_triang (rnd64 x - x) (x - y)). rewrite (Rabs_minus_sym y) in N. lra. }
  pose proof (bpow_gt_0 radix2 e) as P.
  assert (Y : bpow radix2 (52 + e) + bpow radix2 e <= y).
  { rewrite bpow_plus. change (bpow radix2 52) with (IZR (2 ^ 52)). unfold y. assert (IZR (2 ^ 52) + 1 <= IZR m) by (rewrite <- plus_IZR; apply IZR_le; lia). nra. }
  assert (G : bpow radix2 (52 + e) <= Rabs (rnd64 x)) by (apply Rabs_def2 in D; pose proof (bpow_gt_0 radix2 (52 + e)); rewrite Rabs_right; lra).
  destruct (grid64 e x He G) as (k & K). rewrite K in *. unfold y in *. rewrite <- Rmult_minus_distr_r, Rabs_mult, (Rabs_right (bpow radix2 e)) in D by lra.
  rewrite <- minus_IZR, <- abs_IZR in D. assert (Z : IZR (Z.abs (k - m)) < IZR 1) by nra. apply lt_IZR in Z. replace k with m by lia. reflexivity.
Qed.
Lemma rnd64_0 : rnd64 0 = 0. Proof. apply round_0, valid_rnd_N. Qed.
