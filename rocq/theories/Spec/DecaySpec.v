(** Step sizes that change from epoch to epoch. *)
From Coq Require Import List Arith Reals.
From Verif.Spec Require Import ConvergeSpec BackoffSpec.
Local Open Scope R_scope.

(** the bound on the distance from the minimiser after epoch k, from the distance d, with the step
    sizes [step 1], [step 2], ...: every epoch takes its share off and adds a term of second order *)
Fixpoint decay_bound (n : nat) (L mu : R) (step : nat -> R) (s d : R) (k : nat) : R :=
  match k with
  | O => d
  | S j => (1 - step (S j) * INR n * mu / 4) * decay_bound n L mu step s d j + 2 * step (S j) * step (S j) * INR n * L * s
  end.
(** the step sizes tend to zero, but their sum does not stay bounded *)
Definition vanishing (step : nat -> R) : Prop := forall d, 0 < d -> exists K, forall k, (K <= k)%nat -> step k <= d.
Definition unbounded_sum (step : nat -> R) : Prop := forall B, exists k, B <= step_total step k.
