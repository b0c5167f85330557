(** What simulated annealing does, as seen from the events. *)
From Coq Require Import List Arith Bool ZArith.
From Verif.Base Require Import Num.
From Verif.Model Require Import Common.
Import ListNotations.

Section Spec.
  Context {N : Num}.
  Notation vec := (list N).
  Notation ev := (ev N vec vec).
  Variable f : vec -> N.
  Variables (lg ex : N -> N) (next : N -> N -> N) (rnd : nat -> N * N) (x0 : vec) (t0 : N).
  Variable allowed : N -> Prop.      (* move sizes *)
  Local Open Scope num_scope.

  (** [y] is [x] with coordinate i moved by d. *)
  Definition moved_at (i : nat) (d : N) (x y : vec) : Prop :=
    length y = length x /\
    (exists a, nth_error x i = Some a /\ nth_error y i = Some (a + d)) /\
    (forall j, j <> i -> nth_error y j = nth_error x j).

  (** A Laplace-distributed move of scale s obtained from the uniform number u. *)
  Definition laplace_move (s u d : N) : Prop :=
    let w := nofZ 2 * u - n1 in
    d = if nlt w n0 then s * lg (n1 + w) else - s * lg (n1 - w).

  (** The Metropolis test. *)
  Definition accepts (T e e' xi : N) : Prop :=
    nle (e' - e) n0 = true \/ nlt xi (ex ((- (e' - e)) / T)) = true.

  (** [sa_path h x T j]: after the events h (newest first) the state is x, the
      temperature T, and j moves have been tried. *)
  Inductive sa_path : list ev -> vec -> N -> nat -> Prop :=
  | sp_start : sa_path [Begin x0; Ev x0 (f x0)] x0 t0 0
  (* move j touches coordinate j mod n only; it is kept exactly when the Metropolis
     test accepts it, otherwise the state is as before *)
  | sp_keep h x T j s d y :
      sa_path h x T j -> allowed s -> laplace_move s (fst (rnd j)) d ->
      moved_at (j mod length x0) d x y -> accepts T (f x) (f y) (snd (rnd j)) ->
      sa_path (Ev y (f y) :: h) y T (S j)
  | sp_reject h x T j s d y :
      sa_path h x T j -> allowed s -> laplace_move s (fst (rnd j)) d ->
      moved_at (j mod length x0) d x y -> ~ accepts T (f x) (f y) (snd (rnd j)) ->
      sa_path (Ev y (f y) :: h) x T (S j)
  (* the step is reported and the system cools *)
  | sp_step h x T j y v : sa_path (Ev y v :: h) x T j -> sa_path (St x :: Ev y v :: h) x (next T (f x)) j.

  (** the initial move size, or one that does not exceed the maximum *)
  Definition size_ok (init max s : N) : Prop := s = init \/ nlt max s = false.

  (** the points reported by StepTaken, newest first *)
  Definition stepped (h : list ev) : list vec := flat_map (fun e => match e with St x => [x] | _ => [] end) h.

  (** how many of the latest energies (newest first) differ from the one before by
      less than the tolerance, without interruption *)
  Fixpoint quiet (tol : N) (es : list N) : nat :=
    match es with
    | b :: ((a :: _) as r) => if nlt (nabs (b - a)) tol then S (quiet tol r) else 0
    | _ => 0
    end.

  (** the last K of these energies are quiet *)
  Definition froze (tol : N) (K : nat) (es : list N) : Prop := 1 < length es /\ K <= quiet tol es.
  (** this was not the case at any earlier moment *)
  Definition never (tol : N) (K : nat) (es : list N) : Prop := forall a b, es = a ++ b -> a <> [] -> ~ froze tol K b.
End Spec.
