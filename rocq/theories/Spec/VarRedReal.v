(** Separable functions over the real numbers: batch gradients and the average gradient. *)
From Coq Require Import List Arith Reals.
From Verif.Base Require Import Num Instances.
From Verif.Spec Require Import LpSpec.
Import ListNotations.
Local Open Scope nat_scope.

Section R.
  Variable mx : R.
  Notation vec := (list (RNum mx)).
  Variables (p n : nat).                       (* coordinates; functions *)
  Variable G : vec -> nat -> nat -> vec.       (* G x i c: gradient of the functions i .. i+c-1 at x *)
  (** The gradient of a batch is the sum of the gradients of its functions. *)
  Definition additive : Prop := forall x i c, 0 < c -> i + c <= n ->
    length (G x i c) = p /\ forall j, j < p -> nth j (G x i c) 0%R = sumR (map (fun k => nth j (G x k 1) 0%R) (seq i c)).
  (** Coordinate j of the average of the n gradients at x. *)
  Definition avg (x : vec) (j : nat) : R := (sumR (map (fun k => nth j (G x k 1) 0%R) (seq 0 n)) / INR n)%R.
End R.
