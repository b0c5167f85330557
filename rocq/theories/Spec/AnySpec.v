(** What a holder contains after a sequence of calls. *)
From Coq Require Import List Arith.
From Verif.Model Require Import Any.
Import ListNotations.

(** number of objects stored by the calls *)
Fixpoint stored (cs : list call) : nat :=
  match cs with [] => 0 | CSet _ :: cs => S (stored cs) | _ :: cs => stored cs end.

(** the content: the number and the type of the object stored last, unless there was a Clean()
    since.  The calls are given latest first. *)
Fixpoint content_rev (rcs : list call) : option (nat * nat) :=
  match rcs with
  | [] => None
  | CSet t :: older => Some (stored older, t)
  | CClean :: _ => None
  | _ :: older => content_rev older
  end.
Definition content (cs : list call) : option (nat * nat) := content_rev (rev cs).

(** the answer a call must give after the calls [before] *)
Definition right_answer (before : list call) (c : call) (r : answer) : Prop :=
  match c with
  | CAs t =>
      match r with
      | RAs (Got p) => content before = Some (p, t)
      | RAs Threw => forall p, content before <> Some (p, t)
      | _ => False
      end
  | CHas t => exists b, r = RHas b /\ (b = true <-> match content before with Some (_, t') => t = t' | None => t = 0 end)
  | _ => r = RNone
  end.

(** the objects a Clean() finds *)
Definition cleaned (cs : list call) (p : nat) : Prop :=
  exists before after t, cs = before ++ CClean :: after /\ content before = Some (p, t).

(** objects have types other than void, and no null pointer is stored *)
Definition plain (c : call) : Prop :=
  match c with CSet t => t <> 0 | CSetNull _ => False | CAs t => t <> 0 | _ => True end.

(** Clean() is called before every Set() and at the end *)
Fixpoint tidy (full : bool) (cs : list call) : Prop :=
  match cs with
  | [] => full = false
  | CSet _ :: cs => full = false /\ tidy true cs
  | CClean :: cs => tidy false cs
  | _ :: cs => tidy full cs
  end.

(** what the log of a run has to say: one right answer per call, every stored object deleted at
    most once, namely the objects a Clean() found; the others are still there *)
Record good_log (cs : list call) (l : log) : Prop := {
  gl_length : length (l_answers l) = length cs;
  gl_answers : forall before c after, cs = before ++ c :: after ->
    exists r, nth_error (l_answers l) (length before) = Some r /\ right_answer before c r;
  gl_once : NoDup (l_deleted l);
  gl_deleted : forall p, In p (l_deleted l) <-> cleaned cs p;
  gl_heap : length (l_heap l) = stored cs;
  gl_alive : forall p c, nth_error (l_heap l) p = Some c -> (c_alive c = true <-> ~ In p (l_deleted l))
}.
