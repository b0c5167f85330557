(** Vocabulary for the convergence of coordinate descent: matrices as lists of columns, one
    feature per column. *)
From Coq Require Import List Arith Reals.
From Verif.Base Require Import Num Vec.
From Verif.Spec Require Import Gradient ConvergeSpec.
Import ListNotations.
Local Open Scope R_scope.

Notation matR := (list (list R)).
(** d columns of m entries *)
Definition shaped (d m : nat) (x : matR) : Prop := length x = d /\ forall c, In c x -> length c = m.
(** squared Frobenius distance *)
Definition msq (x y : matR) : R := sumR (map (fun p => sqdist (fst p) (snd p)) (combine x y)).
(** [y] is [x] with [h] subtracted from column [j] *)
Definition minus_column (j : nat) (h : list R) (x y : matR) : Prop :=
  length y = length x /\ (forall k, k <> j -> nth_error y k = nth_error x k) /\
  nth_error y j = option_map (fun c => map2 Rminus c h) (nth_error x j).
(** the partial gradient for feature [j]: the column of [pg x j] the optimizer reads *)
Definition part (pg : matR -> nat -> matR) (x : matR) (j : nat) : list R := nth j (pg x j) [].
(** squared length of the whole gradient *)
Definition grad_sq (pg : matR -> nat -> matR) (d : nat) (x : matR) : R :=
  sumR (map (fun j => sqn (part pg x j)) (seq 0 d)).
(** Every column of the gradient has the right length, and moving one column by -h changes the
    objective by at most -<partial gradient, h> + L/2 |h|^2. *)
Definition column_smooth (d m : nat) (L : R) (f : matR -> R) (pg : matR -> nat -> matR) : Prop :=
  forall x j, shaped d m x -> (j < d)%nat ->
    (j < length (pg x j))%nat /\ length (part pg x j) = m /\
    forall h y, length h = m -> minus_column j h x y -> f y <= f x - dotR (part pg x j) h + L / 2 * sqn h.
(** The partial gradients are Lipschitz with constant M. *)
Definition parts_lipschitz (d m : nat) (M : R) (pg : matR -> nat -> matR) : Prop :=
  forall x y j, shaped d m x -> shaped d m y -> (j < d)%nat ->
    sqdist (part pg x j) (part pg y j) <= M * M * msq x y.
(** The gradient bounds the gap to the point [best]; strong convexity implies this. *)
Definition gradient_dominated (d m : nat) (mu : R) (f : matR -> R) (pg : matR -> nat -> matR) (best : matR) : Prop :=
  forall x, shaped d m x -> 2 * mu * (f x - f best) <= grad_sq pg d x.
(** all sequences of n features *)
Fixpoint choices (n d : nat) : list (list nat) :=
  match n with O => [[]] | S m => flat_map (fun j => map (cons j) (choices m d)) (seq 0 d) end.
