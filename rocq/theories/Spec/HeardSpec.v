(** The gradient an optimizer goes on with is the one its callbacks handed back. *)
From Coq Require Import List.
From Verif.Base Require Import Num.
From Verif.Model Require Import Common.
Import ListNotations.

Section Heard.
  Context {N : Num} {X G : Type}.
  Variable cb : CB N X G.
  (** the objective computed last *)
  Fixpoint last_value (h : list (ev N X G)) : N :=
    match h with [] => n0 | Ev _ v :: _ => v | EvG _ v _ _ :: _ => v | _ :: t => last_value t end.
  (** histories newest first: the gradient recorded after the callbacks is their answer to
      the history before it *)
  Fixpoint heard (h : list (ev N X G)) : Prop :=
    match h with
    | [] => True
    | e :: t => match e with
                | EvG x v g g' => g' = cs_grad cb t x v g
                | Gr x _ g g' => g' = cs_grad cb t x (last_value t) g
                | _ => True
                end /\ heard t
    end.
  (** the objective and gradient computed just before each step *)
  Fixpoint step_grads (h : list (ev N X G)) : list (N * G) :=
    match h with
    | [] => []
    | e :: t => match e, t with St _, EvG _ v _ g' :: _ => (v, g') :: step_grads t | _, _ => step_grads t end
    end.
End Heard.
