(** Simultaneous perturbation over the reals, written down directly. *)
From Coq Require Import List Arith Bool Reals.
From Verif.Base Require Import Num Vec Instances.
From Verif.Model Require Import Common.
Import ListNotations.
Local Open Scope R_scope.

Section Spec.
  Variable mx : R.
  Notation N := (RNum mx).
  Notation vec := (list R).
  Variables (a c : nat -> R) (s : nat -> vec) (f : vec -> R).

  (** iterate + c_k s_k and iterate - c_k s_k *)
  Definition up (k : nat) (x : vec) : vec := map2 (fun xi si => xi + c k * si) x (s k).
  Definition down (k : nat) (x : vec) : vec := map2 (fun xi si => xi - c k * si) x (s k).
  (** the step:  x_i - a_k (f+ - f-) / (2 c_k s_i) *)
  Definition next (k : nat) (x : vec) : vec :=
    map2 (fun xi si => xi - a k * ((f (up k x) - f (down k x)) / (2 * c k * si))) x (s k).
  (** what is seen during one full iteration *)
  Definition round (k : nat) (x : vec) : list (ev N vec vec) :=
    [Ev (N := N) (up k x) (f (up k x)); Ev (N := N) (down k x) (f (down k x)); St (next k x);
     Ev (N := N) (next k x) (f (next k x))].
  (** n iterations from x, starting with number k *)
  Fixpoint rounds (n k : nat) (x : vec) : list (ev N vec vec) :=
    match n with O => [] | S m => round k x ++ rounds m (S k) (next k x) end.
  Fixpoint arrived (n k : nat) (x : vec) : vec :=
    match n with O => x | S m => arrived m (S k) (next k x) end.
  (** the objectives after each iteration, preceded by the code's initial values
      DBL_MAX and 0 *)
  Fixpoint objs (n k : nat) (x : vec) : list R :=
    match n with O => [] | S m => f (next k x) :: objs m (S k) (next k x) end.
End Spec.
