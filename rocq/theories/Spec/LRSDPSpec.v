(** The augmented Lagrangian of a semidefinite program with X = R R^T. *)
From Coq Require Import List Arith Reals.
From Verif.Base Require Import Num.
From Verif.Model Require Import LRSDP.
From Verif.Spec Require Import LpSpec SvecSpec.
Import ListNotations.
Local Open Scope R_scope.

(** R R^T, for R with r columns *)
Definition gram (r : nat) (x : nat -> nat -> R) (i j : nat) : R := sum_n r (fun k => x i k * x j k).
(** tr(A X) *)
Definition tr_prod (n : nat) (A X : nat -> nat -> R) : R := trace n (matmul n A X).
(** tr(A X) - b *)
Definition slack (n : nat) (X : nat -> nat -> R) (c : (nat -> nat -> R) * R) : R := tr_prod n (fst c) X - snd c.
(** the i-th constraint; past the last, the constraint 0 = 0 *)
Definition constr (cs : list ((nat -> nat -> R) * R)) (i : nat) := nth i cs (fun _ _ => 0, 0).

(** tr(C R R^T) - sum_i lambda_i (tr(A_i R R^T) - b_i) + sigma/2 sum_i (tr(A_i R R^T) - b_i)^2 *)
Definition lagrangian (n r : nat) (C : nat -> nat -> R) (cs : list ((nat -> nat -> R) * R))
    (lambda : nat -> R) (sigma : R) (x : nat -> nat -> R) : R :=
  let X := gram r x in
  tr_prod n C X - sum_n (length cs) (fun i => lambda i * slack n X (constr cs i))
  + sigma / 2 * sum_n (length cs) (fun i => slack n X (constr cs i) * slack n X (constr cs i)).

(** S = C - sum_i (lambda_i - sigma (tr(A_i R R^T) - b_i)) A_i *)
Definition dual_slack (n r : nat) (C : nat -> nat -> R) (cs : list ((nat -> nat -> R) * R))
    (lambda : nat -> R) (sigma : R) (x : nat -> nat -> R) (i j : nat) : R :=
  C i j - sum_n (length cs) (fun l =>
    (lambda l - sigma * slack n (gram r x) (constr cs l)) * fst (constr cs l) i j).

(** [G] is the gradient at [x] of a function of an n by r matrix *)
Definition mat_gradient_at (n r : nat) (f : (nat -> nat -> R) -> R) (x G : nat -> nat -> R) : Prop :=
  forall D, derivable_pt_lim (fun t => f (fun i k => x i k + t * D i k)) 0
              (sum_n n (fun i => sum_n r (fun k => G i k * D i k))).

(** the point of the last evaluation of the augmented Lagrangian among the calls *)
Definition point_after {N : Num} (x : mat (N := N)) (c : call (N := N)) : mat (N := N) :=
  match c with CAug _ _ y => y | _ => x end.
Definition last_point {N : Num} (x0 : mat (N := N)) (cs : list (call (N := N))) : mat := fold_left point_after cs x0.

