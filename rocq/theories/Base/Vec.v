(** Vectors (the elements of an Armadillo matrix or column, in column-major
    order) as lists, with the element-wise operations the code uses. *)
From Coq Require Import List Arith Lia.
From Verif.Base Require Import Num.
Import ListNotations.

Section Vec.
  Context {N : Num}.
  Fixpoint map2 {A B C : Type} (f : A -> B -> C) (a : list A) (b : list B) : list C :=
    match a, b with
    | x :: a', y :: b' => f x y :: map2 f a' b'
    | _, _ => []
    end.
  Definition vadd (a b : list N) : list N := map2 nadd a b.          (* a + b  *)
  Definition vsub (a b : list N) : list N := map2 nsub a b.          (* a - b  *)
  Definition vmul (a b : list N) : list N := map2 nmul a b.          (* a % b  *)
  Definition vdiv (a b : list N) : list N := map2 ndiv a b.          (* a / b  *)
  Definition vscale (c : N) (a : list N) : list N := map (nmul c) a. (* c * a  *)
  (* arma::accu / arma::dot: summed from the left *)
  Definition vsum (a : list N) : N := fold_left nadd a n0.
  Definition vdot (a b : list N) : N := vsum (vmul a b).
End Vec.

Lemma map2_length {A B C} (f : A -> B -> C) a b : length (map2 f a b) = Nat.min (length a) (length b).
Proof. revert b; induction a as [|x a IH]; intros [|y b]; cbn; auto. Qed.
Lemma nth_error_map2 {A B C} (f : A -> B -> C) : forall a b i,
  nth_error (map2 f a b) i =
  match nth_error a i, nth_error b i with Some x, Some y => Some (f x y) | _, _ => None end.
Proof.
  induction a as [|x a IH]; intros [|y b] [|i]; cbn; auto.
  destruct (nth_error a i); reflexivity.
Qed.
