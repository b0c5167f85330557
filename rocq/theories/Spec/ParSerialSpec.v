(** Functions that share no element, and the pass over them that one thread would make. *)
From Coq Require Import List Arith Bool.
From Verif.Base Require Import Num.
From Verif.Model Require Import Common SA ParallelSgd.
From Verif.Spec Require Import ParSpec.
Import ListNotations.

Section S.
  Context {N : Num}.
  Notation vec := (list N).
  (** [G i x]: the sparse gradient of function i at x.  [supp i p]: function i depends on element p. *)
  Record separate (n : nat) (supp : nat -> nat -> Prop) (G : nat -> vec -> list (nat * N)) : Prop := {
    sep_reads : forall i x y, i < n -> (forall p, supp i p -> nth_error x p = nth_error y p) -> G i x = G i y;
    sep_writes : forall i x p a, i < n -> In (p, a) (G i x) -> supp i p;
    sep_once : forall i x, i < n -> NoDup (map fst (G i x));
    sep_apart : forall i j p, i < n -> j < n -> supp i p -> supp j p -> i = j }.

  (** the iterate after the events h (newest first) of an epoch that started at x0 *)
  Definition after (x0 : vec) (h : list (pev N)) : vec :=
    fold_left (fun y '(p, a) => sub_at p a y) (applied (rev h)) x0.
  (** what a thread may have read of the iterate by the time of the events h: of each element, a value
      it had at some time of the epoch, not the same time for all of them *)
  Definition seen (x0 : vec) (h : list (pev N)) (y : vec) : Prop :=
    forall p, exists h1 h2, h = h1 ++ h2 /\ nth_error y p = nth_error (after x0 h2) p.

  (** one thread, functions 0, 1, ..., n - 1 *)
  Definition serial_pass (step : N) (G : nat -> vec -> list (nat * N)) (n : nat) (x : vec) : vec :=
    fold_left (fun y i => fold_left (fun z '(p, a) => sub_at p (nmul step a) z) (G i y) y) (seq 0 n) x.

  (** one thread: objective and iterate at the end *)
  Fixpoint serial_run (limit : nat) (tolerance : N) (f : vec -> N) (step : nat -> N) (G : nat -> vec -> list (nat * N))
    (n fuel i : nat) (x : vec) (last : N) : option (N * vec) :=
    match fuel with
    | O => None
    | S fuel' =>
        if i =? limit then Some (last, x)
        else if nisnan (f x) || nisinf (f x) then Some (f x, x)
        else if nlt (nabs (nsub last (f x))) tolerance then Some (f x, x)
        else serial_run limit tolerance f step G n fuel' (S i) (serial_pass (step i) G n x) (f x)
    end.
End S.

(** the non-zero elements of a dense gradient, as a sparse matrix holds them *)
From Coq Require Import Reals.
From Verif.Base Require Import Instances.
Fixpoint nonzeros (from : nat) (g : list R) : list (nat * R) :=
  match g with
  | [] => []
  | a :: r => if Req_EM_T a 0 then nonzeros (S from) r else (from, a) :: nonzeros (S from) r
  end.
(** the product of the factors 1 - 2 h of epochs i, i + 1, ..., i + e - 1 with step sizes h *)
Fixpoint shrink (step : nat -> R) (i e : nat) : R :=
  match e with O => 1%R | S e' => ((1 - 2 * step i) * shrink step (S i) e')%R end.
