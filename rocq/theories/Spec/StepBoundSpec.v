(** How far an update policy moves one coordinate. *)
From Coq Require Import List Reals.
From Verif.Base Require Import Num Instances.
From Verif.Model Require Import Updates Sgd.
Import ListNotations.
Local Open Scope R_scope.

(** After any history of step sizes and gradients, an update with step size h moves the
    coordinate by at most C h, whatever the gradient. *)
Definition moves_at_most (mx : R) {S : Type} (up : S -> R -> R -> R -> S * R) (s0 : S) (C : R) : Prop :=
  forall (x : R) (l : list (R * R)) (h g : R), 0 <= h ->
    Rabs (snd (run (N := RNum mx) up s0 x (l ++ [(h, g)])) - snd (run (N := RNum mx) up s0 x l)) <= C * h.

(** The iterates announced to the callbacks during a run, in order. *)
Fixpoint stepped {N : Num} {X G : Type} (tr : list (event N X G)) : list X :=
  match tr with [] => [] | Step x :: r => x :: stepped r | _ :: r => stepped r end.

(** In each coordinate, neighbours in the list are at most B apart. *)
Fixpoint close_by (B : R) (l : list (list R)) : Prop :=
  match l with
  | a :: ((b :: _) as r) => length a = length b /\ (forall i, Rabs (nth i a 0 - nth i b 0) <= B) /\ close_by B r
  | _ => True
  end.
