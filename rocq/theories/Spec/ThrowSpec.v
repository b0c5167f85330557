(** Vocabulary for exceptions: what an Optimize() call does to the caller's iterate, and when the
    caller's code runs. *)
From Coq Require Import List Arith.
From Verif.Base Require Import Num.
From Verif.Model Require Import Common Sgd.
Import ListNotations.

(** [Fn p]: the caller's function is called with the point [p]; [Cb e]: the callbacks are called;
    [Put x]: the iterate, which is the caller's variable, is given the value [x].  Only the first two
    run code of the caller, so only they can throw. *)
Inductive act (X E : Type) : Type := Fn (p : X) | Cb (e : E) | Put (x : X).
Arguments Fn {X E}. Arguments Cb {X E}. Arguments Put {X E}.

Section Spec.
  Context {X E : Type}.
  Definition calls (a : act X E) : bool := match a with Put _ => false | _ => true end.
  (** the caller's variable after [l] *)
  Definition memory (x : X) (l : list (act X E)) : X := fold_left (fun m a => match a with Put y => y | _ => m end) l x.
  (** what the callbacks were shown *)
  Definition told (l : list (act X E)) : list E := flat_map (fun a => match a with Cb e => [e] | _ => [] end) l.
  (** Whenever code of the caller runs - and so whenever it can throw - [P m h c] holds, where [m] is what
      is in the caller's variable, [h] what the callbacks have been shown and [c] the call. *)
  Definition at_every_call (x : X) (l : list (act X E)) (P : X -> list E -> act X E -> Prop) : Prop :=
    forall a c b, l = a ++ c :: b -> calls c = true -> P (memory x a) (told (a ++ [c])) c.
End Spec.

Section Points.
  Context {N : Num} {X G : Type}.
  (** the point a call shows *)
  Definition shown (c : act X (ev N X G)) : X :=
    match c with
    | Fn p | Put p => p
    | Cb (Begin x) | Cb (End x) | Cb (EvG x _ _ _) | Cb (Ev x _) | Cb (Gr x _ _ _) | Cb (St x) => x
    end.
  (** the steps reported *)
  Definition steps_in (h : list (ev N X G)) : list X := flat_map (fun e => match e with St x => [x] | _ => [] end) h.
  (** the point of the last step reported; [x] if there is none *)
  Definition reached (x : X) (h : list (ev N X G)) : X := last (steps_in h) x.
  (** the points at which an objective was reported *)
  Definition evaluated (h : list (ev N X G)) : list X := flat_map (fun e => match e with Ev x _ | EvG x _ _ _ => [x] | _ => [] end) h.
End Points.

(** the same for SGD *)
Section SgdPoints.
  Context {N : Num} {X G : Type}.
  Definition sgd_shown (c : act X (event N X G)) : option X :=
    match c with
    | Fn p | Put p => Some p
    | Cb (BeginOpt x) | Cb (EndOpt x) | Cb (BeginEpoch x _ _) | Cb (EndEpoch x _ _) | Cb (EvalGrad x _ _ _ _) | Cb (Step x) | Cb (Eval x _ _ _) => Some x
    | Cb Shuffled => None
    end.
  Definition sgd_steps_in (h : list (event N X G)) : list X := flat_map (fun e => match e with Step x => [x] | _ => [] end) h.
  Definition sgd_reached (x : X) (h : list (event N X G)) : X := last (sgd_steps_in h) x.
End SgdPoints.

(** every element of [m] is [d] above or below the one of [y] *)
From Coq Require Import Reals.
Definition off_by (d : R) (m y : list R) : Prop :=
  length m = length y /\ forall i, (i < length y)%nat -> (nth i m 0 = nth i y 0 + d \/ nth i m 0 = nth i y 0 - d)%R.
