(** Specification vocabulary for coordinate descent: a partial step is
    (iterate, feature, partial gradient, partial gradient after the callbacks). *)
From Coq Require Import List Arith Bool.
From Verif.Base Require Import Num Vec.
From Verif.Model Require Import CD.
Import ListNotations.

Section Spec.
  Context {N : Num}.
  Notation mat := (list (list N)).
  Definition p_at (e : mat * nat * mat * mat) : mat := fst (fst (fst e)).
  Definition p_feat (e : mat * nat * mat * mat) : nat := snd (fst (fst e)).
  Definition p_grad (e : mat * nat * mat * mat) : mat := snd (fst e).
  Definition p_grad' (e : mat * nat * mat * mat) : mat := snd e.

  (** [y] is [x] except for column [j], which moved by -step * column j of [g] *)
  Definition moves_column (step : N) (x : mat) (j : nat) (g y : mat) : Prop :=
    length y = length x /\
    (forall k, k <> j -> nth_error y k = nth_error x k) /\
    (exists c d, nth_error x j = Some c /\ nth_error g j = Some d /\
       nth_error y j = Some (vsub c (vscale step d))).

  (** [walk step x es xs]: the partial steps [es] start at [x] and lead through the
      points [xs]; an additional last element of [es] may be without step. *)
  Fixpoint walk (step : N) (x : mat) (es : list (mat * nat * mat * mat)) (xs : list mat) : Prop :=
    match es with
    | [] => xs = []
    | e :: es' =>
        p_at e = x /\
        match xs with
        | [] => es' = []
        | y :: xs' => moves_column step x (p_feat e) (p_grad' e) y /\ walk step y es' xs'
        end
    end.
End Spec.
