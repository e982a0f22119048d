(** Lemmas about the range guards over doubles. *)
From Coq Require Import Reals ZArith Lra Lia.
From Flocq Require Import Core IEEE754.Binary IEEE754.Bits.
From Verif Require Import SpecFloat ModelGuardFloat ProofPi.
Open Scope R_scope.

Lemma abs64_val x : rval (abs64 x) = Rabs (rval x).
Proof.
  destruct x as [s|s|s pl H|s m e H]; unfold rval; cbn [abs64 B2R]; try (now rewrite Rabs_R0).
  unfold F2R; cbn [Fnum Fexp cond_Zopp]. rewrite Rabs_mult, (Rabs_right (bpow _ _)) by (apply Rle_ge, bpow_ge_0).
  f_equal. destruct s; cbn [cond_Zopp Fnum Fexp]; rewrite <- abs_IZR; reflexivity.
Qed.
Lemma abs64_finite x : finite64 x -> finite64 (abs64 x).
Proof. destruct x; auto. Qed.

Lemma gt64_finite x y : finite64 x -> finite64 y -> (gt64 x y = true <-> rval y < rval x).
Proof.
  intros Hx Hy. unfold gt64. rewrite Bcompare_correct by auto. fold (rval x). fold (rval y).
  destruct (Rcompare_spec (rval x) (rval y)); split; try discriminate; try lra; auto.
Qed.

Lemma pi64_val : rval M_PI64 = 7074237752028440 / 2251799813685248.
Proof.
  unfold rval, M_PI64, B2R, F2R. cbn [Fnum Fexp cond_Zopp].
  change (bpow radix2 (-51)) with (/ 2251799813685248). reflexivity.
Qed.
Lemma pi2_64_val : rval M_PI_2_64 = 7074237752028440 / 4503599627370496.
Proof.
  unfold rval, M_PI_2_64, B2R, F2R. cbn [Fnum Fexp cond_Zopp].
  change (bpow radix2 (-52)) with (/ 4503599627370496). reflexivity.
Qed.

Lemma pi64_lt_PI : rval M_PI64 < PI /\ rval M_PI_2_64 < PI / 2.
Proof. rewrite pi64_val, pi2_64_val. pose proof PI_bounds. lra. Qed.

Lemma guard_finite : forall lat lon, finite64 lat -> finite64 lon ->
  (latLonGuard lat lon = true <-> Rabs (rval lat) <= rval M_PI_2_64 /\ Rabs (rval lon) <= rval M_PI64).
Proof.
  intros lat lon H1 H2. unfold latLonGuard.
  pose proof (gt64_finite (abs64 lat) M_PI_2_64 (abs64_finite _ H1) eq_refl) as G1.
  pose proof (gt64_finite (abs64 lon) M_PI64 (abs64_finite _ H2) eq_refl) as G2.
  rewrite abs64_val in G1, G2.
  destruct (gt64 (abs64 lat) M_PI_2_64), (gt64 (abs64 lon) M_PI64); split; try discriminate; intros; auto.
  - destruct G1 as [G1 _]. specialize (G1 eq_refl). lra.
  - destruct G1 as [G1 _]. specialize (G1 eq_refl). lra.
  - destruct G2 as [G2 _]. specialize (G2 eq_refl). lra.
  - split; apply Rnot_lt_le; intros L; [apply G1 in L|apply G2 in L]; discriminate.
Qed.

Lemma guard_implies_range : forall lat lon, finite64 lat -> finite64 lon ->
  latLonGuard lat lon = true -> Rabs (rval lat) < PI/2 /\ Rabs (rval lon) < PI.
Proof.
  intros lat lon H1 H2 G. apply guard_finite in G; auto. pose proof pi64_lt_PI. lra.
Qed.

Lemma guard_infinity : forall s x,
  latLonGuard (inf64 s) x = false /\ latLonGuard x (inf64 s) = false.
Proof.
  intros s x. split; [destruct s; reflexivity|].
  unfold latLonGuard. destruct (gt64 (abs64 x) M_PI_2_64); auto.
Qed.

Lemma gt64_nan x y : nan64 x -> gt64 (abs64 x) y = false.
Proof. destruct x; try discriminate. intros _. now destruct y. Qed.

Lemma guard_accepts_nan : forall lat lon, nan64 lat -> nan64 lon ->
  latLonGuard lat lon = true.
Proof. intros. unfold latLonGuard. now rewrite !gt64_nan. Qed.
Lemma guard_nan_lat : forall lat lon, nan64 lat ->
  latLonGuard lat lon = negb (gt64 (abs64 lon) M_PI64).
Proof. intros. unfold latLonGuard. rewrite gt64_nan by auto. now destruct (gt64 _ _). Qed.
