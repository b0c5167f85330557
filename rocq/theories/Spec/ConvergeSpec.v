(** Vocabulary for the convergence theorems: smoothness, convexity and distances. *)
From Coq Require Import List Arith Reals.
From Verif.Base Require Import Num Vec.
From Verif.Spec Require Import Gradient FWSpec.
Import ListNotations.
Local Open Scope R_scope.

(** squared length and squared distance *)
Definition sqn (a : list R) : R := dotR a a.
Fixpoint sqdist (a b : list R) : R :=
  match a, b with x :: a', y :: b' => (x - y) * (x - y) + sqdist a' b' | _, _ => 0 end.

(** [grad] is the gradient of [f] on [K] and is Lipschitz with constant [L] there *)
Definition smooth_on (K : list R -> Prop) (L : R) (f : list R -> R) (grad : list R -> list R) : Prop :=
  (forall x, K x -> gradient_at f x (grad x)) /\
  forall x y, K x -> K y -> sqdist (grad x) (grad y) <= L * L * sqdist x y.
Definition convex_on (K : list R -> Prop) (f : list R -> R) : Prop :=
  forall t a b, 0 <= t <= 1 -> K a -> K b -> f (segment_pt t a b) <= (1 - t) * f a + t * f b.
(** convex even after mu/2 |x|^2 is taken away: strong convexity *)
Definition strongly_convex_on (K : list R -> Prop) (mu : R) (f : list R -> R) : Prop :=
  convex_on K (fun x => f x - mu / 2 * sqn x).
(** the whole space of dimension n *)
Definition space (n : nat) (x : list R) : Prop := length x = n.

Fixpoint sumR (l : list R) : R := match l with [] => 0 | a :: r => a + sumR r end.
