(** Vocabulary for Frank-Wolfe with the line search. *)
From Coq Require Import List Reals.
Import ListNotations.
From Verif.Spec Require Import FWSpec.
Local Open Scope R_scope.

(** the gradient of a quadratic function *)
Definition affine_on (K : list R -> Prop) (grad : list R -> list R) : Prop :=
  forall t a b, 0 <= t <= 1 -> K a -> K b -> grad (segment_pt t a b) = segment_pt t (grad a) (grad b).

(** a convex function that is not quadratic, and its gradient *)
Definition quart (x : list R) : R := match x with [q] => q + / 2 * ((1 - q) * (1 - q) * ((1 - q) * (1 - q))) | _ => 0 end.
Definition quart_grad (x : list R) : list R := match x with [q] => [1 - 2 * ((1 - q) * (1 - q) * (1 - q))] | _ => [] end.
