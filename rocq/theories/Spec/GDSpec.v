(** Specification vocabulary for gradient descent. *)
From Coq Require Import List Arith Bool.
From Verif.Base Require Import Num Vec.
Import ListNotations.

Section Spec.
  Context {N : Num}.
  Notation vec := (list N).
  (** an evaluation: point, objective, gradient, gradient after the callbacks *)
  Definition e_at (e : vec * N * vec * vec) : vec := fst (fst (fst e)).
  Definition e_val (e : vec * N * vec * vec) : N := snd (fst (fst e)).
  Definition e_grad (e : vec * N * vec * vec) : vec := snd (fst e).
  (** the gradient step from there *)
  Definition e_next (step : N) (e : vec * N * vec * vec) : vec :=
    vsub (e_at e) (vscale step (snd e)).

  (** the stopping test on two consecutive objectives *)
  Definition stop_test (tol prev v : N) : bool :=
    nisnan v || nisinf v || nlt (nabs (nsub prev v)) tol.
  (** the results of the test along a sequence of objectives *)
  Fixpoint stop_tests (tol prev : N) (vs : list N) : list bool :=
    match vs with [] => [] | v :: r => stop_test tol prev v :: stop_tests tol v r end.
End Spec.
