(** C59: what it means that an optimizer object that was used before behaves like a new one. *)
From Coq Require Import List.
From Verif.Model Require Import Common.

Section Reuse.
  (** [O]: the object (its members); [I]: what a call of Optimize() is given; [V]: what the
      caller sees of it (value, iterate, events).  A call returns the object as it leaves it. *)
  Context {O I V : Type}.
  Variable call : O -> I -> outc (V * O).

  (** The objects that [new] can be after any number of calls that returned; [P] restricts
      these earlier calls. *)
  Inductive used (P : I -> V -> Prop) (new : O) : O -> Prop :=
  | used_new : used P new new
  | used_again o i v o' : used P new o -> call o i = Ret (v, o') -> P i v -> used P new o'.

  (** the call as the caller sees it *)
  Definition seen (r : outc (V * O)) : outc V :=
    match r with Ret (v, _) => Ret v | Bad => Bad | More => More end.

  (** After every history of calls within [P], a call with an input in [Q] is seen to do what
      it would have done on the new object. *)
  Definition as_new (P : I -> V -> Prop) (Q : I -> Prop) (new : O) : Prop :=
    forall o i, used P new o -> Q i -> seen (call o i) = seen (call new i).
End Reuse.

(** no restriction *)
Definition any {I V : Type} : I -> V -> Prop := fun _ _ => True.
Definition every {I : Type} : I -> Prop := fun _ => True.
