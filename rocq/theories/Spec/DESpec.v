(** What differential evolution does, as seen from the events. *)
From Coq Require Import List Arith Bool ZArith.
From Verif.Base Require Import Num.
From Verif.Model Require Import Common.
Import ListNotations.

Section Spec.
  Context {N : Num}.
  Notation vec := (list N).
  Notation ev := (ev N vec vec).
  Variables (CR w : N) (f : vec -> N).
  Local Open Scope num_scope.

  (** [y] is a candidate for member i of the population: every coordinate is taken
      either from the member or from best + w * (member l - member m), with l <> i. *)
  Definition candidate (best : vec) (pop : list vec) (i : nat) (x y : vec) : Prop :=
    exists l m xl xm cr, l <> i /\ nth_error pop l = Some xl /\ nth_error pop m = Some xm /\
      length y = length x /\
      forall k b a c d, nth_error best k = Some b -> nth_error xl k = Some a -> nth_error xm k = Some c -> nth_error x k = Some d ->
        nth_error y k = Some (match nth_error cr k with
                              | Some u => if nle CR u then d else b + w * (a - c)
                              | None => b + w * (a - c)
                              end).

  (** member i of p is replaced by y *)
  Definition replaced (i : nat) (y : vec) (p p' : list vec) : Prop :=
    nth_error p' i = Some y /\ length p' = length p /\ forall j, j <> i -> nth_error p' j = nth_error p j.

  (** [members best i p es p' full]: members i, i+1, ... of p are tried in turn, the
      events being es; a member is replaced exactly when its candidate is better.
      [full] tells whether all were tried. *)
  Inductive members (best : vec) : nat -> list vec -> list ev -> list vec -> bool -> Prop :=
  | ms_end p : members best (length p) p [] p true
  | ms_stop i p x y : nth_error p i = Some x -> candidate best p i x y ->
      members best i p [Ev x (f x); Ev y (f y)] p false
  | ms_keep i p x y es p' full : nth_error p i = Some x -> candidate best p i x y -> nlt (f y) (f x) = false ->
      members best (S i) p es p' full -> members best i p (Ev x (f x) :: Ev y (f y) :: es) p' full
  | ms_take i p x y q es p' full : nth_error p i = Some x -> candidate best p i x y -> nlt (f y) (f x) = true ->
      replaced i y p q ->
      members best (S i) q es p' full -> members best i p (Ev x (f x) :: Ev y (f y) :: St y :: es) p' full.

  (** [best] is a member of the population which no member beats *)
  Definition is_best (p : list vec) (b : vec) : Prop := In b p /\ forall y, In y p -> nlt (f y) (f b) = false.

  (** n generations; each one uses a best member of the population it starts from *)
  Inductive generations : nat -> list vec -> list ev -> list vec -> Prop :=
  | gs_none p : generations 0 p [] p
  | gs_more n p b es q full es' p' : is_best p b -> members b 0 p es q full -> (full = false -> n = 0) ->
      generations n q es' p' -> generations (S n) p (es ++ es') p'.
End Spec.
