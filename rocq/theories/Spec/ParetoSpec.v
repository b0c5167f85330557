(** Pareto dominance and Pareto fronts, in words of the ordering alone. *)
From Coq Require Import List Arith.
From Verif.Base Require Import Num.
Import ListNotations.

(** P is nowhere worse than Q ... *)
Definition nowhere_worse {N : Num} (P Q : list N) : Prop :=
  forall i a b, nth_error P i = Some a -> nth_error Q i = Some b -> nle a b = true.
(** ... and somewhere better *)
Definition somewhere_better {N : Num} (P Q : list N) : Prop :=
  exists i a b, nth_error P i = Some a /\ nth_error Q i = Some b /\ nlt a b = true.

Definition Dominates {N : Num} (P Q : list N) : Prop := nowhere_worse P Q /\ somewhere_better P Q.

Definition no_nans {N : Num} (P : list N) : Prop := forall a, In a P -> nisnan a = false.

(** A table of objective vectors: as many numbers in each, none of them NaN. *)
Definition table {N : Num} (m : nat) (objs : list (list N)) : Prop :=
  forall P, In P objs -> length P = m /\ no_nans P.

(** member p of the table dominates member q *)
Definition beats {N : Num} (objs : list (list N)) (p q : nat) : Prop :=
  exists P Q, nth_error objs p = Some P /\ nth_error objs q = Some Q /\ Dominates P Q.

(** i is in the k-th front *)
Definition in_front (fronts : list (list nat)) (k i : nat) : Prop :=
  exists F, nth_error fronts k = Some F /\ In i F.

(** The fronts of the members 0..n-1: every member is in exactly one front and
    once, no front is empty, whoever dominates a member of front k is in an
    earlier front, and a member of front k + 1 is dominated by one of front k. *)
Record pareto_fronts (n : nat) (beats : nat -> nat -> Prop) (fronts : list (list nat)) : Prop := {
  pf_all : forall i, In i (concat fronts) <-> i < n;
  pf_once : NoDup (concat fronts);
  pf_some : forall F, In F fronts -> F <> [];
  pf_before : forall k i j, in_front fronts k i -> j < n -> beats j i ->
                exists k', k' < k /\ in_front fronts k' j;
  pf_next : forall k i, in_front fronts (S k) i ->
                exists j, in_front fronts k j /\ beats j i
}.
