(** Vocabulary for stating properties of an optimization from its events. *)
From Coq Require Import List Arith Bool.
From Verif.Base Require Import Num.
From Verif.Model Require Import Common.
Import ListNotations.

Section Spec.
  Context {N : Num} {X G : Type}.
  Notation ev := (ev N X G).

  (** events at which callbacks can ask to stop *)
  Definition asks (e : ev) : bool :=
    match e with EvG _ _ _ _ | Ev _ _ | Gr _ _ _ _ | St _ => true | Begin _ | End _ => false end.
  (** some callback asked to stop when event [e] happened after history [h]
      ([tr] oldest first) *)
  Definition asked_at (cb : CB N X G) (tr h : list ev) (e : ev) (rest : list ev) : Prop :=
    tr = rev h ++ e :: rest /\ asks e = true /\ cs_stop cb (e :: h) = true.
  Definition asked (cb : CB N X G) (tr : list ev) : Prop := exists h e rest, asked_at cb tr h e rest.

  Definition is_begin (e : ev) : bool := match e with Begin _ => true | _ => false end.
  Definition is_end (e : ev) : bool := match e with End _ => true | _ => false end.

  (** BeginOptimization once and first, EndOptimization once and last. *)
  Definition bracketed (x0 xf : X) (tr : list ev) : Prop :=
    exists body, tr = Begin x0 :: body ++ [End xf] /\
      forallb (fun e => negb (is_begin e || is_end e)) body = true.

  (** [chain at next x es]: each element of [es] happens at the point where the
      previous one left off, the first one at [x]. *)
  Fixpoint chain {E : Type} (at_ next : E -> X) (x : X) (es : list E) : Prop :=
    match es with [] => True | e :: r => at_ e = x /\ chain at_ next (next e) r end.
  (** the point where the last one left off *)
  Definition arrive {E : Type} (next : E -> X) (x : X) (es : list E) : X :=
    fold_left (fun _ e => next e) es x.

  (** evaluations of objective and gradient: point, value, gradient, gradient after
      the callbacks *)
  Definition evalg (e : ev) : list (X * N * G * G) :=
    match e with EvG x v g g' => [(x, v, g, g')] | _ => [] end.
  Definition evalgs (tr : list ev) := flat_map evalg tr.
  (** gradient evaluations: point, part, gradient, gradient after the callbacks *)
  Definition grad (e : ev) : list (X * nat * G * G) :=
    match e with Gr x k g g' => [(x, k, g, g')] | _ => [] end.
  Definition grads (tr : list ev) := flat_map grad tr.
  Definition eval (e : ev) : list (X * N) := match e with Ev x v => [(x, v)] | _ => [] end.
  Definition evals (tr : list ev) := flat_map eval tr.
  Definition step_to (e : ev) : list X := match e with St x => [x] | _ => [] end.
  Definition steps_to (tr : list ev) := flat_map step_to tr.
End Spec.
