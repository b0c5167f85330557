(** Least squares over combinations of atoms. *)
From Coq Require Import List Arith Reals.
From Verif.Base Require Import Vec.
From Verif.Spec Require Import LpSpec ProximalSpec.
Import ListNotations.
Local Open Scope R_scope.

Definition dotR (a b : list R) : R := sumR (map2 Rmult a b).
(** the matrix with the given columns, of length k, times c *)
Definition lin (k : nat) (cols : list (list R)) (c : list R) : list R :=
  map (fun j => sumR (map2 (fun ci col => ci * nth j col 0) c cols)) (seq 0 k).
Definition sqdist (u v : list R) : R := sumR (map2 (fun a b => (a - b) ^ 2) u v).
(** the matrix with the given rows times x *)
Definition rowsR (A : list (list R)) (x : list R) : list R := map (fun row => dotR row x) A.
(** (1/2) || A x - b ||^2 *)
Definition loss (A : list (list R)) (b x : list R) : R := sqdist (rowsR A x) b / 2.
(** arma::solve for least squares problems: no other coefficients do better *)
Definition least_squares (m : nat) (solve : list (list R) -> list R -> option (list R)) : Prop :=
  forall cols b c, Forall (fun v => length v = m) cols -> length b = m -> solve cols b = Some c ->
    length c = length cols /\
    forall c', length c' = length cols -> sqdist (lin m cols c) b <= sqdist (lin m cols c') b.
(** the position of a smallest element *)
Definition arg_min (index_min : list R -> nat) : Prop :=
  forall l, l <> [] -> (index_min l < length l)%nat /\ forall j, (j < length l)%nat -> nth (index_min l) l 0 <= nth j l 0.
(** l is k with some elements left out *)
Inductive sublist {X : Type} : list X -> list X -> Prop :=
| sub_nil : sublist [] []
| sub_keep x l k : sublist l k -> sublist (x :: l) (x :: k)
| sub_drop x l k : sublist l k -> sublist l (x :: k).

(** What ProjectToL1Ball makes of v: a vector of 1-norm at most tau, which is v itself if that fits,
    and otherwise the closest to v among those of no larger 1-norm. *)
Definition l1_shrunk (tau : R) (v r : list R) : Prop :=
  length r = length v /\ norm1 r <= tau /\ (norm1 v <= tau -> r = v) /\
  forall y, length y = length v -> norm1 y <= norm1 r -> dist2 v r <= dist2 v y.
(** the gradient of c |-> loss A b (lin d atoms c) *)
Definition coef_grad (d : nat) (A : list (list R)) (b : list R) (atoms : list (list R)) (c : list R) : list R :=
  map (fun t => dotR (rowsR A t) (map2 Rminus (rowsR A (lin d atoms c)) b)) atoms.
(** At most k passes of projected gradient descent on f from c to c': the passes go on while each gains at
    least tol. *)
Inductive passes (f : list R -> R) (grad : list R -> list R) (tau eta tol : R) : nat -> list R -> list R -> Prop :=
| pass_last k c r : l1_shrunk tau (map2 Rminus c (map (Rmult eta) (grad c))) r ->
    k = O \/ f c - f r < tol -> passes f grad tau eta tol (S k) c r
| pass_more k c r r' : l1_shrunk tau (map2 Rminus c (map (Rmult eta) (grad c))) r ->
    tol <= f c - f r -> passes f grad tau eta tol k r r' -> passes f grad tau eta tol (S k) c r'.
