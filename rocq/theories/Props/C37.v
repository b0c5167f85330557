(** C37: the step-size policies of ParallelSGD. *)
From Coq Require Import List Arith Reals ZArith Lra Lia.
From Verif.Base Require Import Num Instances.
From Verif.Model Require Import Schedules.
From Verif.Spec Require Import SchedulesSpec.
From Verif.Proof Require Import SchedulesProof.
Import ListNotations.

Theorem C37_constant_step : forall (N : Num) (step : N) (epoch : nat), constant_step step epoch = step.
Proof. reflexivity. Qed.
Print Assumptions C37_constant_step.

(** Asked for the epochs e, e+1, ..., e+k, ExponentialBackoff answers the last
    question with step * beta^j, where j is the number of cutoff epochs
    (first, next first, ...) that are at most e+k. *)
Theorem C37_exponential_backoff :
  forall (mx : R) (next : nat -> nat) (beta step : R) (first e k : nat),
  (forall c, c < next c)%nat -> (e <= first)%nat ->
  bo_step (backoff_run (N := RNum mx) next beta {| bo_cutoff := first; bo_step := (step : RNum mx) |} e (S k))
  = (step * beta ^ cutoffs_upto next (S (e + k)) first (e + k))%R.
Proof. exact backoff_R. Qed.
Print Assumptions C37_exponential_backoff.

Theorem C37_backoff_non_increasing :
  forall (mx : R) (next : nat -> nat) (beta : R) (s : backoff (N := RNum mx)) (e k : nat),
  (0 <= beta <= 1)%R -> (0 <= bo_step s)%R ->
  (0 <= bo_step (backoff_run (N := RNum mx) next beta s e (S k)) <= bo_step (backoff_run (N := RNum mx) next beta s e k))%R.
Proof. exact backoff_mono. Qed.
Print Assumptions C37_backoff_non_increasing.

(** First cutoff at epoch 3, then every 5 epochs: from epoch 1 to epoch 9 the step
    is scaled twice. *)
Example C37_example :
  bo_step (backoff_run (N := ZNum) (fun c => c + 5) 2%Z {| bo_cutoff := 3; bo_step := (7%Z : ZNum) |} 1 9) = 28%Z /\
  cutoffs_upto (fun c => c + 5) 10 3 9 = 2 /\ (forall c, c < c + 5).
Proof. repeat split; try (vm_compute; reflexivity). intros; lia. Qed.

(** Boundary: with firstBackoffEpoch = 0 the cutoff never moves (0 / beta = 0) and
    every epoch scales the step. *)
Theorem C37_zero_first_epoch :
  forall (mx beta step : R) (e k : nat),
  bo_step (backoff_run (N := RNum mx) (fun c => c) beta {| bo_cutoff := 0; bo_step := (step : RNum mx) |} e k)
  = (step * beta ^ k)%R.
Proof. exact backoff_zero. Qed.
Print Assumptions C37_zero_first_epoch.
