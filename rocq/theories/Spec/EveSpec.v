(** Vocabulary for Eve, over the reals. *)
From Coq Require Import List Reals Arith.
From Verif.Base Require Import Num Instances.
From Verif.Model Require Import Sgd.
From Verif.Spec Require Import SgdSpec UpdatesSpec SwatsSpec.
Import ListNotations.
Local Open Scope R_scope.

Definition clip_to (clip d : R) : R := Rmin (Rmax d (1 / clip)) clip.
(** The clipped relative changes between consecutive objective values. *)
Fixpoint changes (eps clip : R) (objs : list R) : list R :=
  match objs with
  | o1 :: ((o2 :: _) as r) => clip_to clip (Rabs (o2 - o1) / (Rmin o2 o1 + eps)) :: changes eps clip r
  | _ => []
  end.
(** Eve's decay coefficient after the objective values objs: their running average,
    started at 1. *)
Definition eve_dt (eps clip b3 : R) (objs : list R) : R :=
  b3 ^ (length objs - 1) + ema b3 (changes eps clip objs).

Section Path.
  Variable mx : R.
  Notation NR := (RNum mx).
  Notation event := (event NR (list NR) (list NR)).
  Variables (n : nat) (step b1 b2 b3 eps clip : R).
  (** Where the step with history (objs, gradients) leads, if i functions had been
      visited before it. *)
  Definition eve_move (i : nat) (objs : list R) (grads : hist) (x : list R) : list R :=
    tab n (fun j => nth j x 0 -
      step / eve_dt eps clip b3 objs * (M1 b1 (coord j grads) / (1 - b1 ^ S i)) /
      (sqrt (M2 b2 (coord j grads) / (1 - b2 ^ S i)) + eps)).

  Variable f : SepFun NR (list NR) (list NR).
  Variable cb : Callbacks NR (list NR) (list NR).
  (** [eve_path h objs grads x]: after the history h (newest first) the iterate is x;
      objs and grads are the objective values and the gradients (after the callbacks)
      of the batches that led to a step. *)
  Inductive eve_path (x0 : list R) : list event -> list R -> hist -> list R -> Prop :=
  | ep_start : eve_path x0 [] [] [] x0
  | ep_other h e objs grads x :
      eve_path x0 h objs grads x ->
      match e with EvalGrad _ _ _ _ _ | Step _ => False | _ => True end ->
      eve_path x0 (e :: h) objs grads x
  | ep_step h b k o g objs grads x :
      eve_path x0 h objs grads x ->
      sf_evalgrad f (count_shuffles h) x b k = (o, g) ->
      let h1 := EvalGrad x b k o g :: h in
      let objs' := objs ++ [o] in
      let grads' := grads ++ [(1, cb_grad cb h1 g)] in
      let x' := eve_move (visits (rev h)) objs' grads' x in
      eve_path x0 (Step x' :: h1) objs' grads' x'
  (* a callback asked to stop right after an evaluation: no step follows *)
  | ep_stop h b k o g objs grads x :
      eve_path x0 h objs grads x ->
      sf_evalgrad f (count_shuffles h) x b k = (o, g) ->
      cb_stop cb (EvalGrad x b k o g :: h) = true ->
      eve_path x0 (EvalGrad x b k o g :: h) objs grads x.
End Path.
