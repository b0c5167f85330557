(** What conventional neural evolution does, as seen from the events. *)
From Coq Require Import List Arith Bool ZArith.
From Verif.Base Require Import Num SortIdx.
From Verif.Model Require Import Common.
Import ListNotations.

Section Spec.
  Context {N : Num}.
  Notation vec := (list N).
  Notation ev := (ev N vec vec).
  Variables (f : vec -> N) (prob size : N).
  Local Open Scope num_scope.

  (** what mutation adds to an element: size * z with some random z, if its random
      number u is below the mutation probability *)
  Definition bump (d : N) : Prop := exists u z, d = (if nlt u prob then n1 else n0) * (size * z).

  (** [offspring e p q]: population q follows p when the e best members (the elite,
      in the order idx) are the parents. *)
  Definition offspring (e : nat) (p q : list vec) : Prop :=
    exists idx, sorted_index (map f p) idx /\ length q = length p /\
    (* the best member survives, unchanged and in its place *)
    (forall i, nth_error idx 0 = Some i -> nth_error q i = nth_error p i) /\
    (* the other elite members are only mutated *)
    (forall r i x, 0 < r < e -> nth_error idx r = Some i -> nth_error p i = Some x ->
       exists y, nth_error q i = Some y /\ length y = length x /\
       forall k c, nth_error x k = Some c -> exists d, bump d /\ nth_error y k = Some (c + d)) /\
    (* every element of the others comes from some elite member, and is mutated *)
    (forall r i x, e <= r -> nth_error idx r = Some i -> nth_error p i = Some x ->
       exists y, nth_error q i = Some y /\ length y = length x /\
       forall k c', nth_error y k = Some c' -> exists r' i' x' c d, r' < e /\ nth_error idx r' = Some i' /\
         nth_error p i' = Some x' /\ nth_error x' k = Some c /\ bump d /\ c' = c + d).

  (** the events of evaluating a population *)
  Definition evaluated (p : list vec) : list ev := flat_map (fun y => [St y; Ev y (f y)]) p.

  (** [lineage e p ps]: each population is the offspring of the one before. *)
  Fixpoint lineage (e : nat) (p : list vec) (ps : list (list vec)) : Prop :=
    match ps with [] => True | q :: r => offspring e p q /\ lineage e q r end.

  (** v is the least objective in population p *)
  Definition least (p : list vec) (v : N) : Prop :=
    exists b, In b p /\ neq v (f b) = true /\ forall y, In y p -> nlt (f y) (f b) = false.
End Spec.
