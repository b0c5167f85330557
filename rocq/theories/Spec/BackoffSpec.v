(** How far a run with given step sizes can get. *)
From Coq Require Import List Reals.
From Verif.Spec Require Import ConvergeSpec.
Import ListNotations.
Local Open Scope R_scope.

(** no element of z is further than r from the same element of x *)
Definition in_box (x : list R) (r : R) (z : list R) : Prop :=
  length z = length x /\ forall q, Rabs (nth q z 0 - nth q x 0) <= r.

(** the sum of the step sizes of rounds 1, ..., k *)
Definition step_total (step : nat -> R) (k : nat) : R := sumR (map step (seq 1 k)).

(** the sum of all step sizes s, s, ..., s, s b, s b, ..., s b, s b^2, ...: first - 1 rounds with s,
    then q rounds with each of s b, s b^2, ... *)
Definition backoff_total (first q : nat) (s b : R) : R := s * (INR first - 1 + INR q * b / (1 - b)).

(** q is the integer part of first / b *)
Definition whole_part (first : nat) (b : R) (q : nat) : Prop := INR q <= INR first / b < INR q + 1.
