(** Specification vocabulary for Frank-Wolfe. *)
From Coq Require Import List Arith Bool Reals.
From Verif.Base Require Import Num Vec Instances.
From Verif.Model Require Import Common.
From Verif.Spec Require Import CommonSpec GDSpec Gradient.
Import ListNotations.

Section Spec.
  Context {N : Num}.
  Notation vec := (list N).
  Notation entry := (vec * N * vec * vec)%type.   (* point, objective, gradient, gradient after the callbacks *)
  Variable lmo : vec -> vec.
  Variable rule : list (vec * vec) -> vec.

  (** an evaluated point and the solution of the linear problem there *)
  Definition fw_pair (e : entry) : vec * vec := (e_at e, lmo (snd e)).
  (** the duality gap there *)
  Definition fw_gap (e : entry) : N := nabs (vdot (vsub (e_at e) (lmo (snd e))) (snd e)).
  (** the iterate after [k] updates *)
  Definition fw_point (x0 : vec) (es : list entry) (k : nat) : vec :=
    match k with O => x0 | _ => rule (rev (map fw_pair (firstn k es))) end.
End Spec.

(** ** Convexity, over the reals *)
Section Convex.
  Local Open Scope R_scope.
  Definition segment_pt (t : R) (a b : list R) : list R := map2 (fun u v => (1 - t) * u + t * v) a b.
  Definition convex_set (n : nat) (K : list R -> Prop) : Prop :=
    (forall a, K a -> length a = n) /\
    forall t a b, 0 <= t <= 1 -> K a -> K b -> K (segment_pt t a b).
  (** [f] lies above its tangent at [x] with slope [g] *)
  Definition above_tangent (K : list R -> Prop) (f : list R -> R) (x g : list R) : Prop :=
    forall y, K y -> f y >= f x + (dotR g y - dotR g x).
  Definition minimises (K : list R -> Prop) (g s : list R) : Prop :=
    K s /\ forall y, K y -> dotR g s <= dotR g y.
End Convex.
