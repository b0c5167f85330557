(** Gradients of real functions of a vector. *)
From Coq Require Import List Arith Reals.
Import ListNotations.
Local Open Scope R_scope.

Fixpoint dotR (a b : list R) : R :=
  match a, b with x :: a', y :: b' => x * y + dotR a' b' | _, _ => 0 end.
(** x + t d *)
Fixpoint along (x d : list R) (t : R) : list R :=
  match x, d with a :: x', b :: d' => (a + t * b) :: along x' d' t | _, _ => [] end.

(** [g] is the gradient of [f] at [x]: in every direction [d] the derivative of [f] is
    the product of [g] and [d] *)
Definition gradient_at (f : list R -> R) (x g : list R) : Prop :=
  length g = length x /\
  forall d, length d = length x -> derivable_pt_lim (fun t => f (along x d t)) 0 (dotR g d).
