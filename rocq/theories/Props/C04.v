(** C04: callback protocol of SGD. *)
From Coq Require Import List Arith ZArith.
From Verif.Base Require Import Num Instances Size.
From Verif.Model Require Import Sgd.
From Verif.Spec Require Import SgdSpec.
From Verif.Proof Require Import SgdMore SgdEx.
Import ListNotations.

(** The events form a run of the protocol [pstep] (Spec/SgdSpec.v): epoch numbers
    1, 2, 3, ..., EndEpoch reports the mean of the objectives seen in the epoch,
    every StepTaken directly follows the evaluation of its batch, all hooks see the
    current iterate. *)
Theorem C04_sgd_callback_protocol :
  forall (N : Num) (X G U D : Type) (c : Cfg N X G U D) (f : SepFun N X G) (cb : Callbacks N X G)
         (x : X) (u : U) (d : D) (step : N) (fuel : nat) (r : res N X G U D),
  0 < sf_num f -> 0 < c_batch c ->
  optimize_with c f cb fuel u d step x = Return r ->
  runs f (c_shuffle c) (c_exact c) PStart (r_trace r) PDone.
Proof. intros. eapply c04; eassumption. Qed.
Print Assumptions C04_sgd_callback_protocol.

(** BeginOptimization first, EndOptimization exactly once, last, with the final
    iterate. *)
Theorem C04_sgd_begin_and_end :
  forall (N : Num) (X G U D : Type) (c : Cfg N X G U D) (f : SepFun N X G) (cb : Callbacks N X G)
         (x : X) (u : U) (d : D) (step : N) (fuel : nat) (r : res N X G U D),
  0 < sf_num f -> 0 < c_batch c ->
  optimize_with c f cb fuel u d step x = Return r ->
  exists tr, r_trace r = BeginOpt x :: BeginEpoch x 1 n0 :: tr ++ [EndOpt (r_x r)] /\
             (forall e, In e tr -> is_endopt e = false).
Proof. intros. eapply c04_once; eassumption. Qed.
Print Assumptions C04_sgd_begin_and_end.

Example C04_example :
  exists r, ex_run (ex_c 2 4 0 true false) (ex_f 3) nostop_cb 100 10%Z = Return r /\
    r_trace r = [BeginOpt 10%Z; BeginEpoch 10%Z 1 0%Z;
                 EvalGrad 10%Z 0 2 181%Z 38%Z; Step 7%Z; EvalGrad 7%Z 2 1 25%Z 10%Z; Step 6%Z;
                 EndEpoch 6%Z 1 68%Z; BeginEpoch 6%Z 2 206%Z; Shuffled;
                 EvalGrad 6%Z 0 1 36%Z 12%Z; Step 5%Z; EndOpt 5%Z].
Proof. eexists. split; vm_compute; reflexivity. Qed.
