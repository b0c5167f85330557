(** When an Eve run goes on, when it ends and what it returns; histories newest first. *)
From Coq Require Import List Arith Bool.
From Verif.Base Require Import Num.
From Verif.Model Require Import Sgd.
From Verif.Spec Require Import SgdSpec.
Import ListNotations.

Section EveRun.
  Context {N : Num} {X G : Type}.
  Notation event := (event N X G).
  Variable cb : Callbacks N X G.
  Variables (n batch lim : nat) (tol : N) (shuffle : bool).
  Local Open Scope num_scope.

  (** the functions visited *)
  Fixpoint count (h : list event) : nat :=
    match h with [] => 0 | EvalGrad _ _ k _ _ :: h => count h + k | _ :: h => count h end%nat.
  (** the objectives added up in this pass, and the sum of the pass before (DBL_MAX if none) *)
  Fixpoint pass (h : list event) : N * N :=
    match h with
    | [] => (n0, nmax)
    | EvalGrad _ _ _ o _ :: h => (fst (pass h) + o, snd (pass h))
    | BeginEpoch _ _ _ :: h => (n0, fst (pass h))
    | _ :: h => pass h
    end.
  Fixpoint passes_begun (h : list event) : nat :=
    match h with [] => 0 | BeginEpoch _ _ _ :: h => S (passes_begun h) | _ :: h => passes_begun h end%nat.
  (** some callback asked to stop *)
  Fixpoint asked_to_stop (h : list event) : bool :=
    match h with [] => false | e :: t => (asks e && cb_stop cb (e :: t)) || asked_to_stop t end.
  (** the sum of a pass is an ordinary number, not within the tolerance of the pass before *)
  Definition goes_on (p : N * N) : bool :=
    negb (nisnan (fst p) || nisinf (fst p)) && negb (nlt (nabs (snd p - fst p)) tol).
  (** between two passes: the epoch has begun, and the functions are shuffled if they should be *)
  Definition between (h : list event) : Prop :=
    match h with
    | Shuffled :: BeginEpoch _ _ _ :: _ => shuffle = true
    | BeginEpoch _ _ _ :: _ => shuffle = false
    | _ => False
    end.
  Definition after_step (h : list event) : Prop := match h with Step _ :: _ => True | _ => False end.

  (** which event may follow which history *)
  Definition may_follow (e : event) (h : list event) : Prop :=
    match e with
    | BeginOpt _ => h = []
    | EvalGrad _ b k _ _ =>
        asked_to_stop h = false /\ (count h < lim)%nat /\
        b = (count h mod n)%nat /\ k = Nat.min (Nat.min batch (lim - count h)) (n - b) /\
        (if b =? 0 then if count h =? 0 then match h with [BeginOpt _] => True | _ => False end else between h else after_step h)%nat
    | Step _ => asked_to_stop h = false /\ match h with EvalGrad _ _ _ _ _ :: _ => True | _ => False end
    | EndEpoch _ i v => after_step h /\ (count h mod n = 0)%nat /\ i = S (passes_begun h) /\ v = fst (pass h) / nofnat n
    | BeginEpoch _ i v => match h with EndEpoch _ _ _ :: _ => True | _ => False end /\
        goes_on (pass h) = true /\ i = S (S (passes_begun h)) /\ v = fst (pass h)
    | Shuffled => shuffle = true /\ match h with BeginEpoch _ _ _ :: _ => True | _ => False end
    | Eval _ _ _ _ | EndOpt _ => False
    end.
  Fixpoint eve_log (h : list event) : Prop := match h with [] => True | e :: h => may_follow e h /\ eve_log h end.

  (** the run up to the end of its loop was h: why it ended, and the running objective *)
  Definition pass_ended (h : list event) : Prop := match h with EndEpoch _ _ _ :: _ => goes_on (pass h) = false | _ => False end.
  Definition run_over (h : list event) : Prop := (lim <= count h)%nat \/ asked_to_stop h = true.
  Definition running (h : list event) : N :=
    match h with
    | Shuffled :: BeginEpoch _ _ v :: _ | BeginEpoch _ _ v :: _ => if (count h =? lim)%nat then v else n0
    | _ => fst (pass h)
    end.
  Definition is_eval (e : event) : Prop := match e with Eval _ _ _ _ => True | _ => False end.
End EveRun.
