(** Theorem C167: NaN and infinities in nonlinear least squares. *)
From Coq Require Import Reals ZArith List Bool.
From Flocq Require Import Core IEEE754.BinarySingleNaN IEEE754.Binary IEEE754.Bits.
From Verif Require Import Base ModelDate ModelGuardFloat ModelNlsIeee SpecNlsIeee ProofNlsIeee ProofNlsIeee2 ProofNlsIeee3.
Import ListNotations.
Local Open Scope nat_scope.

(** What success means.  Either nothing was done, since the guess is not farther
    than eps from the state; or the state is not finite; or it is finite and the
    last correction, from a finite state, has a norm of at most eps. *)
Theorem C167_success_means : forall solve h relin fuel yk Hk xk eps xkp1 J H' x' x1 J',
  UnweightedNonlinear64 solve h relin fuel yk Hk xk eps xkp1 J = Ret (true, (H', x', x1, J')) ->
  (H' = Hk /\ x' = xk /\ x1 = xkp1 /\ exists res, subv64 xkp1 xk = Ret res /\ gt64 (norm64 res) eps = false) \/
  (x' = x1 /\ (has inf64 x1 \/
     exists xp c res, all_finite x1 /\ all_finite xp /\ all_finite c /\ addv64 xp c = Ret x1 /\ subv64 x1 xp = Ret res /\ le64 (norm64 res) eps = true)).
Proof. exact unweighted_end. Qed.
Print Assumptions C167_success_means.
Theorem C167_weighted_success_means : forall solve h relin fuel yk Hk xk Wk eps xkp1 J H' x' x1 J',
  WeightedNonlinear64 solve h relin fuel yk Hk xk Wk eps xkp1 J = Ret (true, (H', x', x1, J')) ->
  (H' = Hk /\ x' = xk /\ x1 = xkp1 /\ exists res, subv64 xkp1 xk = Ret res /\ gt64 (norm64 res) eps = false) \/
  (x' = x1 /\ (has inf64 x1 \/
     exists xp c res, all_finite x1 /\ all_finite xp /\ all_finite c /\ addv64 xp c = Ret x1 /\ subv64 x1 xp = Ret res /\ le64 (norm64 res) eps = true)).
Proof. exact weighted_end. Qed.
Print Assumptions C167_weighted_success_means.

(** The middle case occurs: from any state of the loop, an iteration that starts
    at a state that is not finite, or whose correction contains a NaN, ends the
    loop with success and a state that is not finite. *)
Theorem C167_nonfinite_ends_the_loop : forall solve h relin fuel yk eps s yx H' d c x1,
  gt64 (norm64 (i_res s)) eps = true ->
  h (i_x s) (i_yx s) = Ret (true, yx) -> relin (i_x s) (i_H s) = Ret (true, H') -> subv64 yk yx = Ret d -> solve H' d = Ret c ->
  addv64 (i_x s) c = Ret x1 -> has inf64 (i_x s) \/ has nan64 c ->
  exists res, nls_loop64 solve h relin (S fuel) yk eps s = Ret (true, IT64 H' x1 x1 yx res) /\ has inf64 x1.
Proof. exact last_iteration. Qed.
Print Assumptions C167_nonfinite_ends_the_loop.
(** For the call: a NaN in the first correction is reported as success. *)
Theorem C167_nan_is_reported_as_success : forall solve h relin fuel yk Hk xk eps xkp1 J res0 yx H' d c x1,
  m_rows Hk = length yk -> m_cols Hk = length xk -> length xkp1 = length xk -> length xk <= length yk ->
  m_rows H' = length yk -> m_cols H' = length xk ->
  subv64 xkp1 xk = Ret res0 -> gt64 (norm64 res0) eps = true ->
  h xk [] = Ret (true, yx) -> relin xk Hk = Ret (true, H') -> subv64 yk yx = Ret d -> solve H' d = Ret c -> addv64 xk c = Ret x1 ->
  has inf64 xk \/ has nan64 c ->
  exists J', UnweightedNonlinear64 solve h relin (S fuel) yk Hk xk eps xkp1 J = Ret (true, (H', x1, x1, J')) /\ has inf64 x1.
Proof. exact nan_success. Qed.
Print Assumptions C167_nan_is_reported_as_success.

(** The norm in the condition: when it is finite all entries are, and it is the
    rounded root of the rounded sum of the rounded squares. *)
Theorem C167_norm : forall v, fin64 (norm64 v) = true -> all_finite v /\
  Binary.B2R 53 1024 (norm64 v) =
    rnd64 (sqrt (rounded_sum (map (fun x => rnd64 (Binary.B2R 53 1024 x * Binary.B2R 53 1024 x)) v))).
Proof. exact norm_fin. Qed.
Print Assumptions C167_norm.

(** A NaN as tolerance: success at once, nothing estimated. *)
Theorem C167_nan_tolerance : forall solve h relin fuel yk Hk xk eps xkp1 J,
  m_rows Hk = length yk -> m_cols Hk = length xk -> length xkp1 = length xk -> length xk <= length yk -> nan64 eps = true ->
  exists J', UnweightedNonlinear64 solve h relin fuel yk Hk xk eps xkp1 J = Ret (true, (Hk, xk, xkp1, J')).
Proof. exact nan_tolerance. Qed.
Print Assumptions C167_nan_tolerance.

(** A NaN in the state makes the cost NaN, so a caller can detect it there. *)
Theorem C167_nan_shows_in_the_cost : forall yk Hk x J J', (forall row, In row (m_data Hk) -> length row = m_cols Hk) ->
  0 < length yk -> has nan64 x -> cost64 yk Hk x J = Ret (true, J') -> nan64 J' = true.
Proof. exact cost_nan. Qed.
Print Assumptions C167_nan_shows_in_the_cost.

(** Fitting sqrt(x) = 1 from x = -1: success, with NaN for the state and the
    cost. *)
Example C167_case : fin64 (doubleOfZ (-1)) = true /\
  match UnweightedNonlinear64 (fun _ d => Ret d) sqrt_model (fun _ H => Ret (true, H)) 1 [one64] (MX64 1 [[one64]]) [doubleOfZ (-1)] half64 [one64] one64 with
  | Ret (true, (_, [x], [x1], J)) => nan64 x && nan64 x1 && nan64 J
  | _ => false
  end = true.
Proof. exact sqrt_case. Qed.
