(** C03: the value SGD returns. *)
From Coq Require Import List Arith ZArith.
From Verif.Base Require Import Num Instances Size.
From Verif.Model Require Import Sgd.
From Verif.Spec Require Import SgdSpec.
From Verif.Proof Require Import SgdMore SgdEx.
Import ListNotations.

(** With exactObjective, unless the run was ended by the convergence test: the sum
    over all batches at the final iterate. *)
Theorem C03_sgd_exact_objective :
  forall (N : Num) (X G U D : Type) (c : Cfg N X G U D) (f : SepFun N X G) (cb : Callbacks N X G)
         (x : X) (u : U) (d : D) (step : N) (fuel : nat) (r : res N X G U D),
  0 < sf_num f -> 0 < c_batch c ->
  optimize_with c f cb fuel u d step x = Return r -> c_exact c = true ->
  ~ stops_at (c_tol c) nmax (pass_sums n0 (r_trace r)) ->
  r_val r = full_objective f (c_batch c) (count_shuffles (r_trace r)) (r_x r).
Proof. intros. eapply c03_exact; eassumption. Qed.
Print Assumptions C03_sgd_exact_objective.

(** Otherwise: the sum of the batch objectives since the last finished pass if
    there are any, else the sum of the last finished pass - or 0, when a callback
    asked to stop at the boundary between two passes. *)
Theorem C03_sgd_running_objective :
  forall (N : Num) (X G U D : Type) (c : Cfg N X G U D) (f : SepFun N X G) (cb : Callbacks N X G)
         (x : X) (u : U) (d : D) (step : N) (fuel : nat) (r : res N X G U D),
  0 < sf_num f -> 0 < c_batch c ->
  optimize_with c f cb fuel u d step x = Return r ->
  c_exact c = false \/ stops_at (c_tol c) nmax (pass_sums n0 (r_trace r)) ->
  (since [] (r_trace r) <> [] /\ r_val r = sum (since [] (r_trace r))) \/
  (since [] (r_trace r) = [] /\ exists ps, pass_sums n0 (r_trace r) = ps ++ [r_val r]) \/
  (since [] (r_trace r) = [] /\ r_val r = n0 /\ stop_requested cb (r_trace r) /\
   visits (r_trace r) < limit (c_max c)).
Proof. intros. eapply c03_running; eassumption. Qed.
Print Assumptions C03_sgd_running_objective.

(** The last alternative happens: a callback such as EarlyStopAtMinLoss that stops
    at the end of an epoch makes SGD return 0 although every pass had a positive
    objective.  The claim "the value of the last pass" is false. *)
Theorem C03_sgd_last_pass_refuted :
  exists (c : Cfg ZNum Z Z unit unit) f cb x r,
    0 < sf_num f /\ 0 < c_batch c /\ c_exact c = false /\
    optimize_with c f cb 100 tt tt 1%Z x = Return r /\
    pass_sums (n0 (n := ZNum)) (r_trace r) = [4278%Z; 459%Z] /\ r_val r = 0%Z.
Proof.
  exists (ex_c 2 100 0 true false), (ex_f 5), (stop_at_epoch_end 2), 40%Z. eexists.
  split; [cbn; auto with arith|]. split; [cbn; auto with arith|]. split; [reflexivity|].
  split; [vm_compute; reflexivity|]. split; vm_compute; reflexivity.
Qed.
Print Assumptions C03_sgd_last_pass_refuted.

(** exactObjective is not honoured when the run is ended by the tolerance. *)
Theorem C03_sgd_exact_always_refuted :
  exists (c : Cfg ZNum Z Z unit unit) f cb x r,
    0 < sf_num f /\ 0 < c_batch c /\ c_exact c = true /\
    optimize_with c f cb 100 tt tt 1%Z x = Return r /\
    r_val r <> full_objective f (c_batch c) (count_shuffles (r_trace r)) (r_x r).
Proof.
  exists (ex_c 2 100 100000 true true), (ex_f 5), nostop_cb, 40%Z. eexists.
  split; [cbn; auto with arith|]. split; [cbn; auto with arith|]. split; [reflexivity|].
  split; [vm_compute; reflexivity|]. vm_compute. discriminate.
Qed.
Print Assumptions C03_sgd_exact_always_refuted.

Example C03_example_exact :
  exists r, ex_run (ex_c 2 12 0 true true) (ex_f 5) nostop_cb 100 40%Z = Return r /\
    ~ stops_at (N := ZNum) 0%Z (nmax (n := ZNum)) (pass_sums (n0 (n := ZNum)) (r_trace r)) /\
    r_val r = full_objective (ex_f 5) 2 2 (r_x r) /\ r_val r = 55%Z.
Proof.
  eexists. split; [vm_compute; reflexivity|]. split; [intros H; vm_compute in H; destruct H; discriminate|].
  split; vm_compute; reflexivity.
Qed.
