(** The Lovasz theta relaxation in factored form, and the documented formulas of three problems. *)
From Coq Require Import Arith List Reals.
From Verif.Model Require Import Softmax.
From Verif.Spec Require Import SoftmaxSpec.
Import ListNotations.
Local Open Scope R_scope.

(** the inner product of two columns of an r-row matrix *)
Definition column_product (r : nat) (x : mat) (i j : nat) : R := total r (fun a => x a i * x a j).
(** the trace of the product of the matrix with its transpose *)
Definition square_sum (r c : nat) (x : mat) : R := total r (fun a => total c (fun j => x a j * x a j)).
(** g is the gradient of f at the r by c matrix x *)
Definition is_gradient (r c : nat) (f : mat -> R) (x g : mat) : Prop :=
  forall a i, (a < r)%nat -> (i < c)%nat -> derivable_pt_lim (fun t => f (put x a i t)) (x a i) (g a i).
(** the edge joins two different vertices *)
Definition proper_edge (e : nat * nat) : Prop := fst e <> snd e.
(** the augmented Lagrangian of: minimise minus the sum of all inner products of columns, subject to
    unit trace and, for every edge, twice the inner product of its columns being zero; with
    multiplier -n for the trace, -1 for every edge, and penalty 1/2 *)
Definition fixed_lagrangian (edges : list (nat * nat)) (r n : nat) (x : mat) : R :=
  let tr := square_sum r n x - 1 in
  - total n (fun i => total n (fun j => column_product r x i j))
  + (INR n * tr + / 4 * tr ^ 2)
  + fold_right Rplus 0 (map (fun e => let v := 2 * column_product r x (fst e) (snd e) in v + / 4 * v ^ 2) edges).

(** cross_in_tray_function.hpp 21-25 (the tenth root of a positive number) *)
Definition cross_doc (x1 x2 : R) : R :=
  - (1 / 10000) * Rpower (Rabs (sin x1 * sin x2 * exp (Rabs (100 - sqrt (x1 ^ 2 + x2 ^ 2) / PI))) + 1) (/ 10).
