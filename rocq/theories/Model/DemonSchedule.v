(** The number of momentum iterations the Demon optimizers are constructed with. *)
From Coq Require Import Arith.

(** demon_sgd/demon_sgd.hpp 76 and demon_adam/demon_adam.hpp 92-93 (size_t; the product is
    taken not to wrap) *)
Definition demon_iterations (maxIterations batchSize : nat) : nat := maxIterations * batchSize.
