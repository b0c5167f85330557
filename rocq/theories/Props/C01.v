(** C01: SGD visits each separable function exactly once per epoch. *)
From Coq Require Import List Arith ZArith.
From Verif.Base Require Import Num Instances.
From Verif.Model Require Import Sgd.
From Verif.Spec Require Import SgdSpec.
From Verif.Proof Require Import SgdMore SgdEx.
Import ListNotations.

(** The j-th function visited is the one at position [j mod n], and it is visited
    after exactly [j / n] reorderings (none without shuffling): every pass is the
    sequence 0, ..., n-1, and the order changes only between passes.  Batches are
    never empty, never larger than batchSize and never reach past the last
    function. *)
Theorem C01_sgd_one_visit_per_epoch :
  forall (N : Num) (X G U D : Type) (c : Cfg N X G U D) (f : SepFun N X G) (cb : Callbacks N X G)
         (x : X) (u : U) (d : D) (step : N) (fuel : nat) (r : res N X G U D),
  0 < sf_num f -> 0 < c_batch c ->
  optimize_with c f cb fuel u d step x = Return r ->
  visited 0 (r_trace r) =
    map (fun j => ((if c_shuffle c then j / sf_num f else 0), j mod sf_num f))
        (seq 0 (visits (r_trace r))) /\
  (forall y b k o g, In (EvalGrad y b k o g) (r_trace r) ->
     0 < k <= c_batch c /\ b + k <= sf_num f).
Proof. intros. eapply c01; eassumption. Qed.
Print Assumptions C01_sgd_one_visit_per_epoch.

(** 5 functions in batches of 2, 12 visits: two passes and two more visits. *)
Example C01_example :
  exists r, ex_run (ex_c 2 12 0 true false) (ex_f 5) nostop_cb 100 40%Z = Return r /\
    visits (r_trace r) = 12 /\
    visited 0 (r_trace r) =
      [(0,0);(0,1);(0,2);(0,3);(0,4);(1,0);(1,1);(1,2);(1,3);(1,4);(2,0);(2,1)].
Proof. eexists. split; [vm_compute; reflexivity|]. split; reflexivity. Qed.
