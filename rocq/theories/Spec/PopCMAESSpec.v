(** Vocabulary for restarted CMA-ES. *)
From Coq Require Import List Arith.
From Verif.Base Require Import Num.
From Verif.Model Require Import Common.
From Verif.Spec Require Import CommonSpec.
Import ListNotations.

(** all that callbacks saw evaluated in the given runs *)
Definition observed {N : Num} (rs : list (Res N (list N) (list N) * nat)) : list (list N * N) :=
  flat_map (fun r => evals (o_tr (fst r))) rs.
(** The number the evaluation budget is compared with, for runs of the given costs:
    each restart counts the evaluations of all runs up to it. *)
Definition counted (costs : list nat) : nat :=
  list_sum (map (fun i => list_sum (firstn (S i) costs)) (seq 1 (length costs - 1))).
