(** Vocabulary for the step-size schedules. *)
From Coq Require Import List Arith Bool.
From Verif.Base Require Import Num.
From Verif.Model Require Import Sgd.
Import ListNotations.

Section Periods.
  Variable mul : nat -> nat.
  Variable t0 : nat.
  (** The length of the k-th period: t0, then t0 * multFactor, ... *)
  Definition period (k : nat) : nat := Nat.iter k mul t0.
  (** The sum of the first k+1 periods. *)
  Fixpoint mark (k : nat) : nat := match k with O => t0 | S j => mark j + period k end.
  (** The first update of phase k (updates are numbered from 0): the one after the
      k-th restart, which happens at update [mark k + 1]. *)
  Definition phase_start (k : nat) : nat := match k with O => 0 | S j => mark j + 2 end.
End Periods.

(** The number of cutoff epochs c, next c, next (next c), ... that are at most e. *)
Fixpoint cutoffs_upto (next : nat -> nat) (fuel c e : nat) : nat :=
  match fuel with
  | O => 0
  | S k => if c <=? e then S (cutoffs_upto next k (next c) e) else 0
  end.

Section Snap.
  Context {N : Num} {X G : Type}.
  (** The iterates right after each step, oldest first. *)
  Definition step_points (tr : list (event N X G)) : list X :=
    flat_map (fun e => match e with Step x => [x] | _ => [] end) tr.
  (** The elements of a list at the positions (counted from [i]) where [p] holds. *)
  Fixpoint pick (p : nat -> bool) (i : nat) (l : list X) : list X :=
    match l with
    | [] => []
    | x :: r => (if p i then [x] else []) ++ pick p (S i) r
    end.
End Snap.
