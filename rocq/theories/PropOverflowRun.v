(** Theorem C166, continued: calls of integrate and whole runs. *)
From Coq Require Import Reals ZArith List Lra Lia.
From Flocq Require Import Core.
From Verif Require Import Base BaseVec SpecRot SpecConverge SpecRunFloat SpecFloatOps SpecOverflow ModelDate ModelStrapdownFloat ModelFramesFloat ModelNavFloat
  ProofAttitude ProofStrapdown ProofStrapdown2 ProofStrapdownFloat ProofConverge ProofOverflow9 ProofOverflow11 PropConverge PropRunFloat.
Import ListNotations.
Open Scope R_scope.

(** One call of integrate in the range of C135. *)
Theorem C166_integrate_never_overflows : forall r A R0 e y dV dTh t t0, binary64_in_range r -> is_rotation R0 -> close_to e A (mvmul R0) ->
  0 <= e <= 1 / 100 -> place_ok y -> (1 <= t - t0 <= 1000000)%Z -> norm dV <= 98 * lapse t0 t -> bpow radix2 (-480) <= norm dTh <= 4 ->
  integrate_f (ops_of r) (fun x => r (x * x)) (fun x => r (Rpower x (3 / 2))) dV dTh t A (fst y) (snd y) t0 =
  integrate_f binary64_ops pow2_64 (fun x => rnd64 (Rpower x (3 / 2))) dV dTh t A (fst y) (snd y) t0.
Proof. intros r A R0 e y dV dTh t t0 Hr HR HC He P T NV NT. exact (proj1 (call_same r A R0 e y dV dTh t t0 Hr HR HC He P T NV NT)). Qed.
Print Assumptions C166_integrate_never_overflows.

(** A run as long as C135 allows, while the computed position stays in range.
    Every call succeeds. *)
Theorem C166_navigation_run_never_overflows : forall r, binary64_in_range r ->
  forall l A R0 e y t0, is_rotation R0 -> close_to e A (mvmul R0) -> 0 <= e -> inputs_ok t0 l -> e + 2100 * u64 * INR (length l) <= 1 / 100 ->
  stays binary64_ops pow2_64 (fun x => rnd64 (Rpower x (3 / 2))) (A, y) t0 l ->
  nav_run_f (ops_of r) (fun x => r (x * x)) (fun x => r (Rpower x (3 / 2))) (A, y) t0 l =
    nav_run_f binary64_ops pow2_64 (fun x => rnd64 (Rpower x (3 / 2))) (A, y) t0 l /\
  exists z, nav_run_f binary64_ops pow2_64 (fun x => rnd64 (Rpower x (3 / 2))) (A, y) t0 l = Ret (true, z).
Proof. exact run_same. Qed.
Print Assumptions C166_navigation_run_never_overflows.

(** The turning vehicle of C136. *)
Example C166_run_case : let l := [(vscale (1 / 100) held, vscale (1 / 100) ez, 10000%Z)] in
  stays binary64_ops pow2_64 (fun x => rnd64 (Rpower x (3 / 2))) (m3id, resting) 0 l /\ inputs_ok 0 l.
Proof. destruct C136_double_case as (A & B & _). exact (conj A B). Qed.
