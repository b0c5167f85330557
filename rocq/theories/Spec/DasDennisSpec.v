(** Binomial coefficients and the lattice of a simplex. *)
From Coq Require Import List Arith Reals Permutation Sorting.Sorted.
Import ListNotations.

(** Pascal's triangle *)
Fixpoint choose (n k : nat) : nat :=
  match n, k with
  | _, O => 1
  | O, S _ => 0
  | S n, S k => choose n k + choose n (S k)
  end.

(** m natural numbers with sum p *)
Definition lattice (m p : nat) (c : list nat) : Prop := length c = m /\ list_sum c = p.

(** what arma::sort does to a vector of real numbers *)
Definition sorts_up (sortv : list R -> list R) : Prop :=
  forall l, Permutation (sortv l) l /\ StronglySorted Rle (sortv l).
