(** C63: the iterate of SGD moves only by the update policy. *)
From Coq Require Import List Arith ZArith.
From Verif.Base Require Import Num Instances Size.
From Verif.Model Require Import Sgd.
From Verif.Spec Require Import SgdSpec.
From Verif.Proof Require Import SgdMore SgdEx.
Import ListNotations.

(** The final iterate, policy states and step size are obtained from the initial
    ones by applying, for every evaluated batch in turn, the update policy to the
    gradient evaluated at the current iterate (as the callbacks left it) and then
    the decay policy. *)
Theorem C63_sgd_moves_by_policy :
  forall (N : Num) (X G U D : Type) (c : Cfg N X G U D) (f : SepFun N X G) (cb : Callbacks N X G)
         (x : X) (u : U) (d : D) (step : N) (fuel : nat) (r : res N X G U D),
  0 < sf_num f -> 0 < c_batch c ->
  optimize_with c f cb fuel u d step x = Return r ->
  moved f (c_up c) (c_dp c) cb x u d step (rev (r_trace r)) (r_x r) (r_u r) (r_d r) (r_step r).
Proof. intros. eapply c63; eassumption. Qed.
Print Assumptions C63_sgd_moves_by_policy.

Example C63_example :
  exists r, ex_run (ex_c 2 4 0 true false) (ex_f 3) nostop_cb 100 10%Z = Return r /\ r_x r = 5%Z.
Proof. eexists. split; vm_compute; reflexivity. Qed.
