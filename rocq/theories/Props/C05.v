(** C05: a callback that asks to stop does stop SGD. *)
From Coq Require Import List Arith ZArith.
From Verif.Base Require Import Num Instances Size.
From Verif.Model Require Import Sgd.
From Verif.Spec Require Import SgdSpec.
From Verif.Proof Require Import SgdMore SgdEx.
Import ListNotations.

(** [e] is any event at which the callbacks are asked, and they answer true. *)
Theorem C05_sgd_stop_request_stops :
  forall (N : Num) (X G U D : Type) (c : Cfg N X G U D) (f : SepFun N X G) (cb : Callbacks N X G)
         (x : X) (u : U) (d : D) (step : N) (fuel : nat) (r : res N X G U D) pre e post,
  0 < sf_num f -> 0 < c_batch c ->
  optimize_with c f cb fuel u d step x = Return r ->
  r_trace r = pre ++ e :: post -> asks e = true -> cb_stop cb (rev (pre ++ [e])) = true ->
  (forall e', In e' post -> is_evalgrad e' = false) /\
  (forall y, In (Step y) post -> is_evalgrad e = true /\ exists q, post = Step y :: q) /\
  exists y q, post = q ++ [EndOpt y].
Proof. intros. eapply c05; eassumption. Qed.
Print Assumptions C05_sgd_stop_request_stops.

Example C05_example :
  exists r pre e post, ex_run (ex_c 2 400 0 true false) (ex_f 5) (stop_at_eval 3) 500 40%Z = Return r /\
    r_trace r = pre ++ e :: post /\ asks e = true /\
    cb_stop (stop_at_eval 3) (rev (pre ++ [e])) = true /\ length pre = 6 /\ length post = 5.
Proof.
  eexists. eexists [_; _; _; _; _; _]. eexists. eexists.
  split; [vm_compute; reflexivity|]. split; [reflexivity|]. repeat split.
Qed.
