(** The grid: all combinations of categories, lexicographically. *)
From Coq Require Import List.
Import ListNotations.

Fixpoint grid (cats : list nat) : list (list nat) :=
  match cats with
  | [] => [[]]
  | c :: rest => flat_map (fun j => map (cons j) (grid rest)) (seq 0 c)
  end.
