(** Vocabulary for the regret of SGD: what the run paid, compared with staying at one point. *)
From Coq Require Import List Arith Reals.
From Verif.Base Require Import Num Instances.
From Verif.Model Require Import Sgd.
From Verif.Spec Require Import SgdSpec Gradient ConvergeSpec.
Import ListNotations.
Local Open Scope R_scope.

Section Regret.
  Variable mx : R.
  Notation event := (event (RNum mx) (list R) (list R)).
  Variable f : SepFun (RNum mx) (list R) (list R).
  (** the objective of a batch, after [j] shuffles *)
  Definition batch_value (j b k : nat) (x : list R) : R := fst (sf_evalgrad f j x b k).
  (** Every batch is a convex function and the gradients are its (sub)gradients: the batch
      lies above its tangents.  It need not be differentiable. *)
  Definition convex_batches (n : nat) : Prop :=
    forall j b k x y, length x = n -> length y = n ->
      let g := snd (sf_evalgrad f j x b k) in
      length g = n /\ batch_value j b k y >= batch_value j b k x + (dotR g y - dotR g x).

  (** all batch objectives reported during the run, and what the same batches cost at [y];
      oldest event first, [j] shuffles so far *)
  Fixpoint paid (tr : list event) : list R :=
    match tr with [] => [] | EvalGrad _ _ _ o _ :: r => o :: paid r | _ :: r => paid r end.
  Fixpoint at_point (y : list R) (j : nat) (tr : list event) : list R :=
    match tr with
    | [] => []
    | EvalGrad _ b k _ _ :: r => batch_value j b k y :: at_point y j r
    | Shuffled :: r => at_point y (S j) r
    | _ :: r => at_point y j r
    end.
  (** the gradients computed and the points where *)
  Fixpoint batch_grads (tr : list event) : list (list R) :=
    match tr with [] => [] | EvalGrad _ _ _ _ g :: r => g :: batch_grads r | _ :: r => batch_grads r end.
  Fixpoint batch_points (tr : list event) : list (list R) :=
    match tr with [] => [] | EvalGrad x _ _ _ _ :: r => x :: batch_points r | _ :: r => batch_points r end.
  (** [f] is the sum of [terms]: a batch is the sum of its functions *)
  Definition sum_of_terms (term : nat -> nat -> list R -> R) : Prop :=
    forall j b k x, batch_value j b k x = sumR (map (fun i => term j i x) (seq b k)).
End Regret.
(** the sums of the squares of each coordinate *)
Definition squares (n : nat) (gs : list (list R)) : list R :=
  map (fun i => sumR (map (fun g => nth i g 0 * nth i g 0) gs)) (seq 0 n).
Definition within (D : R) (x y : list R) : Prop := forall i, Rabs (nth i x 0 - nth i y 0) <= D.
