(** Step-size schedules: the decay policies of SGDR and SnapshotSGDR, the step-size
    policies of ParallelSGD, and the averaging of SnapshotSGDR. *)
From Coq Require Import List Arith Bool ZArith.
From Verif.Base Require Import Num Vec.
From Verif.Model Require Import Sgd.
Import ListNotations.

(** ** parallel_sgd/decay_policies *)
(** constant_step.hpp 40-43 *)
Definition constant_step {N : Num} (step : N) (epoch : nat) : N := step.

(** exponential_backoff.hpp 62-70.  [next] is the map
    cutoffEpoch += firstBackoffEpoch / beta (computed in double, truncated to size_t). *)
Record backoff {N : Num} : Type := { bo_cutoff : nat; bo_step : N }.
Definition backoff_step {N : Num} (next : nat -> nat) (beta : N) (s : backoff) (numEpoch : nat) : backoff :=
  if bo_cutoff s <=? numEpoch
  then {| bo_cutoff := next (bo_cutoff s); bo_step := nmul (bo_step s) beta |} else s.

(* asked for epochs e, e+1, ..., e+k-1 in turn (parallel_sgd_impl.hpp 86-118) *)
Definition backoff_run {N : Num} (next : nat -> nat) (beta : N) (s : backoff) (e k : nat) : backoff :=
  fold_left (backoff_step next beta) (seq e k) s.

(** ** sgdr/cyclical_decay.hpp and sgdr/snapshot_ensembles.hpp *)
Record cyc : Type := {
  cy_restart : nat;        (* epochRestart *)
  cy_next : nat;           (* nextRestart  *)
  cy_batch : nat;          (* batchRestart *)
  cy_epoch : nat           (* epoch        *)
}.
(* cyclical_decay.hpp 55-67, snapshot_ensembles.hpp 62-68 *)
Definition cyc_init (epochRestart : nat) : cyc :=
  {| cy_restart := epochRestart; cy_next := epochRestart; cy_batch := 0; cy_epoch := 0 |}.

Section Cyc.
  Context {N : Num} {X G : Type}.
  Variable mul : nat -> nat.       (* epochRestart *= multFactor, truncated to size_t *)
  Variable cosf : N -> N.          (* std::cos *)
  Variable pi : N.                 (* arma::datum::pi *)
  Variables (c eb : N).            (* constStepSize, epochBatches *)
  Local Open Scope num_scope.

  (* 0.5 * constStepSize * (1 + cos((batchRestart / epochBatches) * pi)) *)
  Definition cosine_step (b : nat) : N :=
    ndiv n1 (nofZ 2) * c * (n1 + cosf ((nofnat b / eb) * pi)).

  (** cyclical_decay.hpp 123-152: the new state and the new step size *)
  Definition cyc_update (s : cyc) (step : N) : cyc * N :=
    let due := (cy_restart s <=? cy_epoch s)%nat in                      (* 128 *)
    let step' := if due then cosine_step (cy_batch s) else step in       (* 131-133 *)
    let b := if due then S (cy_batch s) else cy_batch s in               (* 136 *)
    if (cy_next s <? cy_epoch s)%nat                                     (* 140 *)
    then let er := mul (cy_restart s) in
         ({| cy_restart := er; cy_next := (cy_next s + er)%nat; cy_batch := 0; cy_epoch := S (cy_epoch s) |}, step')
    else ({| cy_restart := cy_restart s; cy_next := cy_next s; cy_batch := b; cy_epoch := S (cy_epoch s) |}, step').

  (** The policy built with epochRestart = t0 and asked n times (the loop of SGD,
      sgd_impl.hpp 164): its state and the step size after n updates. *)
  Fixpoint cyc_after (t0 : nat) (step : N) (n : nat) : cyc * N :=
    match n with
    | O => (cyc_init t0, step)
    | S k => let '(s, h) := cyc_after t0 step k in cyc_update s h
    end.

  (* as a decay policy of SGD *)
  Definition cyc_dp (s : cyc) (x : X) (step : N) (g : G) : cyc * N := cyc_update s step.

  (** snapshot_ensembles.hpp 149-184: the same with a copy of the iterate stored at
      a restart once the period has reached snapshotEpochs (174-177) *)
  Definition snap_dp (snapshotEpochs : nat) (s : cyc * list X) (x : X) (step : N) (g : G)
    : (cyc * list X) * N :=
    let '(c0, snaps) := s in
    let '(c1, step') := cyc_update c0 step in
    let snaps' := if (cy_next c0 <? cy_epoch c0)%nat && (snapshotEpochs <=? cy_restart c1)%nat
                  then snaps ++ [x] else snaps in
    ((c1, snaps'), step').
End Cyc.

(** snapshot_ensembles.hpp 70-80: the number of restarts within maxIterations updates *)
Definition count_restarts (mul : nat -> nat) (epochRestart maxIterations : nat) : nat :=
  snd (fold_left (fun s i => let '(er, nr, k) := s in
                   if nr <? i then (mul er, nr + mul er, S k) else (er, nr, k))
                 (seq 0 maxIterations) (epochRestart, epochRestart, 0)).
(** 82-83: snapshotEpochs; [powm k] is (size_t)(epochRestart * multFactor^k), and the
    exponent is computed in size_t, so it wraps around below zero. *)
Definition snapshot_epochs (mul : nat -> nat) (powm : nat -> nat) (wrap : nat -> nat -> nat)
    (epochRestart maxIterations snapshots : nat) : nat :=
  powm (wrap (count_restarts mul epochRestart maxIterations + 1) snapshots).

(** snapshot_sgdr_impl.hpp 84-116: after the run of SGD, the iterate and the snapshots
    held by the decay policy are averaged and the objective is evaluated anew, one
    function at a time.  Vectors are lists. *)
Section Snapshot.
  Context {N : Num} {G U : Type}.
  Notation X := (list N).
  Definition mean_iterate (x : X) (snaps : list X) : X :=                     (* 100-104 *)
    map (fun a => ndiv a (nofnat (length snaps + 1))) (fold_left vadd snaps x).
  Fixpoint sum_functions (f : SepFun N X G) (shuf : nat) (x : X) (i k : nat) (acc : N) : N :=   (* 107-113 *)
    match k with
    | O => acc
    | S k' => sum_functions f shuf x (S i) k' (nadd acc (sf_eval f shuf x i 1))
    end.
  Definition snapshot_optimize (c : Cfg N X G U (cyc * list X)) (f : SepFun N X G) (cb : Callbacks N X G)
      (accumulate : bool) (fuel : nat) (u : U) (d : cyc * list X) (step : N) (x : X)
    : outcome (N * X * res N X G U (cyc * list X)) :=
    match optimize_with c f cb fuel u d step x with
    | Return r =>
        if accumulate then
          let xm := mean_iterate (r_x r) (snd (r_d r)) in
          let shuf := length (filter (fun e => match e with Shuffled => true | _ => false end) (r_trace r)) in
          Return (sum_functions f shuf xm 0 (sf_num f) n0, xm, r)
        else Return (r_val r, r_x r, r)
    | UB => UB
    | Diverge => Diverge
    end.
End Snapshot.
