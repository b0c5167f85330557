(** Symmetric matrices over the reals. *)
From Coq Require Import List Arith Reals.
From Verif.Spec Require Import LpSpec.
Import ListNotations.
Local Open Scope R_scope.

Definition symmetric (n : nat) (A : nat -> nat -> R) : Prop := forall i j, (i < n)%nat -> (j < n)%nat -> A i j = A j i.

(** sum over 0 <= k < n *)
Definition sum_n (n : nat) (f : nat -> R) : R := sumR (map f (seq 0 n)).

Definition matmul (n : nat) (A B : nat -> nat -> R) (i j : nat) : R := sum_n n (fun k => A i k * B k j).
Definition trace (n : nat) (A : nat -> nat -> R) : R := sum_n n (fun i => A i i).
Definition half_sum (A B : nat -> nat -> R) (i j : nat) : R := (A i j + B i j) / 2.

(** inner product of two vectors *)
Definition dotv (u v : list R) : R := sumR (map (fun q => fst q * snd q) (combine u v)).
(** matrix, as the list of its rows, times vector *)
Definition apply_rows (rows : list (list R)) (v : list R) : list R := map (fun r => dotv r v) rows.

(** [es] lists the non-zero elements of the n x n matrix [A], each once *)
Definition elements_of (n : nat) (A : nat -> nat -> R) (es : list (nat * nat * R)) : Prop :=
  NoDup (map fst es) /\
  (forall i j v, In (i, j, v) es -> (i < n)%nat /\ (j < n)%nat /\ v = A i j) /\
  (forall i j, (i < n)%nat -> (j < n)%nat -> A i j <> 0 -> In (i, j, A i j) es).
