(** Vocabulary for the convergence of big-batch SGD on whole batches. *)
From Coq Require Import List Arith Reals.
From Verif.Base Require Import Num Instances.
From Verif.Model Require Import VarRed BigBatch.
Import ListNotations.
Local Open Scope R_scope.

Section Rate.
  Variable mx : R.
  (** the points reported by the StepTaken callback *)
  Fixpoint stepped (tr : list (bev (RNum mx))) : list (list R) :=
    match tr with [] => [] | BStep x _ :: r => x :: stepped r | _ :: r => stepped r end.
  (** The functions 0, .., n-1 have the gradients [gi 0], .., [gi (n-1)], whose sum is [grad], and all
      together the value [F], on p-dimensional points and whatever the number of shuffles. *)
  Definition whole_sum (p : nat) (f : VFun (RNum mx)) (F : list R -> R) (grad : list R -> list R) (gi : nat -> list R -> list R) : Prop :=
    (forall j x, length x = p -> vf_eval f j x 0 (vf_num f) = F x) /\
    (forall j x i, vf_grad f j x i 1 = gi i x) /\
    (forall x, length x = p -> fold_left (fun s i => Vec.vadd (N := RNum mx) s (gi i x)) (seq 1 (vf_num f - 1)) (gi 0%nat x) = grad x).
End Rate.
(** the step size never falls below this: step size before the run, search parameter and Lipschitz
    constant of the gradient *)
Definition least_step (eta sp L : R) : R := Rmin eta ((1 - sp) / L).
