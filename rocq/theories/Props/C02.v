(** C02: SGD respects maxIterations exactly, and terminates. *)
From Coq Require Import List Arith ZArith.
From Verif.Base Require Import Num Instances Size.
From Verif.Model Require Import Sgd.
From Verif.Spec Require Import SgdSpec.
From Verif.Proof Require Import SgdMore SgdEx.
Import ListNotations.

Theorem C02_sgd_max_iterations :
  forall (N : Num) (X G U D : Type) (c : Cfg N X G U D) (f : SepFun N X G) (cb : Callbacks N X G)
         (x : X) (u : U) (d : D) (step : N) (fuel : nat) (r : res N X G U D),
  0 < sf_num f -> 0 < c_batch c ->
  optimize_with c f cb fuel u d step x = Return r ->
  visits (r_trace r) <= limit (c_max c) /\
  (visits (r_trace r) = limit (c_max c) \/ stop_requested cb (r_trace r) \/
   stops_at (c_tol c) nmax (pass_sums n0 (r_trace r))).
Proof. intros. eapply c02_bound; eassumption. Qed.
Print Assumptions C02_sgd_max_iterations.

(** Every run ends, after at most [limit] rounds of the loop. *)
Theorem C02_sgd_terminates :
  forall (N : Num) (X G U D : Type) (c : Cfg N X G U D) (f : SepFun N X G) (cb : Callbacks N X G)
         (x : X) (u : U) (d : D) (step : N) (fuel : nat),
  0 < sf_num f -> 0 < c_batch c -> limit (c_max c) < fuel -> sf_num f < fuel ->
  exists r, optimize_with c f cb fuel u d step x = Return r.
Proof. intros. apply c02_terminates; assumption. Qed.
Print Assumptions C02_sgd_terminates.

(** Boundary: with NumFunctions() = 0 the first round computes a remainder by
    zero. *)
Theorem C02_sgd_zero_functions_undefined :
  forall (N : Num) (X G U D : Type) (c : Cfg N X G U D) (f : SepFun N X G) (cb : Callbacks N X G)
         (x : X) (u : U) (d : D) (step : N) (fuel : nat),
  sf_num f = 0 -> cb_stop cb [BeginEpoch x 1 n0; BeginOpt x] = false ->
  optimize_with c f cb (S fuel) u d step x = UB.
Proof. intros. apply zero_functions_ub; assumption. Qed.
Print Assumptions C02_sgd_zero_functions_undefined.

(** Limit 12 is met exactly although 5 does not divide it; with a generous
    tolerance the second pass stops the run after 10 visits. *)
Example C02_example :
  (exists r, ex_run (ex_c 2 12 0 true false) (ex_f 5) nostop_cb 100 40%Z = Return r /\
     visits (r_trace r) = 12) /\
  (exists r, ex_run (ex_c 2 12 1000000 true false) (ex_f 5) nostop_cb 100 40%Z = Return r /\
     visits (r_trace r) = 10 /\ stops_at (N := ZNum) 1000000%Z (nmax (n := ZNum)) (pass_sums (n0 (n := ZNum)) (r_trace r))).
Proof.
  split; eexists; (split; [vm_compute; reflexivity|]).
  - reflexivity.
  - split; vm_compute; auto.
Qed.
