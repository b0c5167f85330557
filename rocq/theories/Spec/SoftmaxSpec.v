(** Softmax regression as documented. *)
From Coq Require Import Arith List Reals.
From Verif.Model Require Import Softmax.
Import ListNotations.
Local Open Scope R_scope.

(** total of a function over 0 .. n-1 *)
Definition total (n : nat) (f : nat -> R) : R := fold_right Rplus 0 (map f (seq 0 n)).

Section Doc.
  (** samples are columns of [data]; an intercept is a constant feature in front *)
  Variables (data : mat) (rows : nat) (labels : nat -> nat) (classes : nat) (lambda : R) (intercept : bool).
  Definition width : nat := if intercept then S rows else rows.
  Definition feature (i j : nat) : R :=
    if intercept then match j with O => 1 | S j' => data j' i end else data j i.
  Definition logit (par : mat) (k i : nat) : R := total width (fun j => par k j * feature i j).
  (** minus the log-probability the model gives to the label of sample i *)
  Definition loss (par : mat) (i : nat) : R :=
    - ln (exp (logit par (labels i) i) / total classes (fun k => exp (logit par k i))).
  Definition square_norm (par : mat) : R := total classes (fun k => total width (fun j => par k j * par k j)).
  (** the average loss of the samples start .. start + b - 1, plus the regularisation *)
  Definition objective (start b : nat) (par : mat) : R :=
    total b (fun i => loss par (start + i)) / INR b + lambda / 2 * square_norm par.
End Doc.

(** the parameters with one entry replaced *)
Definition put (par : mat) (k j : nat) (v : R) : mat :=
  fun a c => if ((a =? k) && (c =? j))%nat%bool then v else par a c.
Definition inner_product (r c : nat) (a b : mat) : R := total r (fun k => total c (fun j => a k j * b k j)).
