(** C34: the step-size schedule of SGDR. *)
From Coq Require Import List Arith Reals ZArith Lra Lia.
From Verif.Base Require Import Num Instances.
From Verif.Model Require Import Sgd Schedules.
From Verif.Spec Require Import SgdSpec SchedulesSpec.
From Verif.Proof Require Import SchedulesProof SgdMore ScheduleEx.
Import ListNotations.

(** The step size never leaves [0, initial step]. *)
Theorem C34_range :
  forall (mx : R) (mul : nat -> nat) (t0 : nat) (c eb step : R) (n : nat), (0 <= step <= c)%R ->
  (0 <= snd (cyc_after (N := RNum mx) mul cos PI c eb t0 step n) <= c)%R.
Proof. intros mx mul t0 c eb step n H. exact (cyc_range mx mul t0 c eb step n H). Qed.
Print Assumptions C34_range.

(** The whole schedule.  Number the updates from 0; the k-th period lasts
    [period k] and restart k happens at update [mark k + 1], the sum of the periods
    so far plus one.  In phase k, update n leaves the step alone while n < period k
    and afterwards sets it to c/2 (1 + cos (pi j / epochBatches)), where j counts from
    the start of the phase or from update [period k], whichever is later. *)
Theorem C34_schedule :
  forall (N : Num) (mul : nat -> nat) (t0 : nat) (cosf : N -> N) (pi c eb step : N) (k n : nat),
  (forall j, 1 <= period mul t0 j) ->
  phase_start mul t0 k <= n <= mark mul t0 k + 1 ->
  snd (cyc_after mul cosf pi c eb t0 step (S n)) =
    if period mul t0 k <=? n
    then nmul (nmul (ndiv n1 (nofZ 2)) c)
              (nadd n1 (cosf (nmul (ndiv (nofnat (n - Nat.max (phase_start mul t0 k) (period mul t0 k))) eb) pi)))
    else snd (cyc_after mul cosf pi c eb t0 step n).
Proof. intros. apply schedule; assumption. Qed.
Print Assumptions C34_schedule.

(** Every update belongs to exactly one phase, so the schedule above is complete. *)
Theorem C34_phases :
  forall (mul : nat -> nat) (t0 n : nat), (forall j, 1 <= period mul t0 j) ->
  exists! k, phase_start mul t0 k <= n <= mark mul t0 k + 1.
Proof. exact phases. Qed.
Print Assumptions C34_phases.

(** The first update of a phase brings the step back to the initial step, provided
    the new period is not longer than the number of updates made so far (always the
    case for multFactor = 1, from the second phase on). *)
Theorem C34_restart :
  forall (mx : R) (mul : nat -> nat) (t0 : nat) (c eb step : R) (k : nat),
  (forall j, 1 <= period mul t0 j)%nat -> (period mul t0 (S k) <= mark mul t0 k + 2)%nat ->
  snd (cyc_after (N := RNum mx) mul cos PI c eb t0 step (mark mul t0 k + 3)) = c.
Proof. exact restart_R. Qed.
Print Assumptions C34_restart.

Theorem C34_restart_constant_period :
  forall (mx : R) (t0 : nat) (c eb step : R) (k : nat), (1 <= t0)%nat ->
  snd (cyc_after (N := RNum mx) (fun t => t) cos PI c eb t0 step (mark (fun t => t) t0 k + 3)) = c.
Proof. exact restart_const. Qed.
Print Assumptions C34_restart_constant_period.

(** With multFactor = 2 a restart does not bring the step back: after updates 7, 8
    and 9 (period 5, then 10; one batch per epoch) it is still 0. *)
Theorem C34_restart_refuted :
  forall mx : R, exists (t0 : nat) (c eb step : R) (k : nat), (0 < c)%R /\
  snd (cyc_after (N := RNum mx) (fun t => 2 * t)%nat cos PI c eb t0 step (mark (fun t => 2 * t)%nat t0 k + 3)) = 0%R.
Proof. exact restart_refuted. Qed.
Print Assumptions C34_restart_refuted.

(** Inside one phase the step rises again: the period of the cosine is the number
    of batches per epoch, not the length of the phase. *)
Theorem C34_decreasing_within_phase_refuted :
  forall mx : R, exists (t0 : nat) (c eb step : R) (k n : nat), (0 < c)%R /\
  (phase_start (fun t => t) t0 k <= n)%nat /\ (n + 1 <= mark (fun t => t) t0 k + 1)%nat /\
  (snd (cyc_after (N := RNum mx) (fun t => t) cos PI c eb t0 step (S n)) <
   snd (cyc_after (N := RNum mx) (fun t => t) cos PI c eb t0 step (S (S n))))%R.
Proof. exact rises_refuted. Qed.
Print Assumptions C34_decreasing_within_phase_refuted.

(** The step size with which an SGD run ends is the scheduled one. *)
Theorem C34_in_sgd :
  forall (N : Num) (X G U : Type) (mul : nat -> nat) (t0 : nat) (cosf : N -> N) (pi h0 eb : N)
         (c : Cfg N X G U cyc) (f : SepFun N X G) (cb : Callbacks N X G)
         (fuel : nat) (u : U) (step : N) (x : X) (r : res N X G U cyc),
  0 < sf_num f -> 0 < c_batch c -> c_dp c = cyc_dp mul cosf pi h0 eb ->
  optimize_with c f cb fuel u (cyc_init t0) step x = Return r ->
  r_step r = snd (cyc_after mul cosf pi h0 eb t0 step (length (step_points (r_trace r)))).
Proof. exact @cyc_in_sgd. Qed.
Print Assumptions C34_in_sgd.

(** period 3, doubling: phases 0..4, 5..10 *)
Example C34_example :
  map (period (fun t => 2 * t) 3) [0; 1; 2] = [3; 6; 12] /\ map (mark (fun t => 2 * t) 3) [0; 1; 2] = [3; 9; 21] /\
  phase_start (fun t => 2 * t) 3 1 = 5 /\ (forall j, 1 <= period (fun t => 2 * t) 3 j).
Proof. repeat split; try reflexivity. induction j as [|j IH]; simpl in *; [lia|]. lia. Qed.
