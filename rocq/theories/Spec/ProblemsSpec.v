(** Splitting the functions of a problem into consecutive batches. *)
From Coq Require Import List Arith Reals Permutation.
From Verif.Spec Require Import LpSpec SvecSpec.
Import ListNotations.
Local Open Scope R_scope.

(** the batches (begin, batchSize) of the given sizes, one after the other *)
Fixpoint batches_from (b : nat) (sizes : list nat) : list (nat * nat) :=
  match sizes with [] => [] | s :: r => (b, s) :: batches_from (b + s) r end.

(** however 0 .. n-1 is split into consecutive batches, the values add up to [total] *)
Definition values_add_up (n : nat) (E : nat -> nat -> R) (total : R) : Prop :=
  forall sizes, list_sum sizes = n -> sumR (map (fun q => E (fst q) (snd q)) (batches_from 0 sizes)) = total.
(** ... the vectors add up to [total], entry by entry *)
Definition vectors_add_up (n : nat) (G : nat -> nat -> list R) (total : list R) : Prop :=
  forall sizes, list_sum sizes = n ->
    (forall q, In q (batches_from 0 sizes) -> length (G (fst q) (snd q)) = length total) /\
    forall i, sumR (map (fun q => nth i (G (fst q) (snd q)) 0) (batches_from 0 sizes)) = nth i total 0.

(** (x, v): v is the value at x, and no point with n entries has a lower one *)
Definition global_minimum (n : nat) (f : list R -> R) (xv : list R * R) : Prop :=
  length (fst xv) = n /\ f (fst xv) = snd xv /\ forall y, length y = n -> snd xv <= f y.
