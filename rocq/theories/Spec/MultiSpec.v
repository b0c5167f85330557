(** Multi-objective minimisation: dominance, Pareto-optimal points. *)
From Coq Require Import List Reals.
Import ListNotations.
Local Open Scope R_scope.

(** p is at least as good as q in every objective ... *)
Definition as_good (p q : list R) : Prop := Forall2 Rle p q.
(** ... and strictly better in one *)
Definition dominates (p q : list R) : Prop := as_good p q /\ p <> q.

(** x is feasible and no feasible point dominates it *)
Definition pareto_optimal (feasible : list R -> Prop) (F : list R -> list R) (x : list R) : Prop :=
  feasible x /\ forall y, feasible y -> ~ dominates (F y) (F x).

(** n coordinates between lo and hi *)
Definition in_box (lo hi : R) (n : nat) (x : list R) : Prop := length x = n /\ Forall (fun a => lo <= a <= hi) x.
(** the bounds of ZDT4: the first coordinate in [0, 1], nine more in [-10, 10] *)
Definition zdt4_box (x : list R) : Prop :=
  exists a t, x = a :: t /\ 0 <= a <= 1 /\ in_box (-10) 10 9 t.

(** from the k-th coordinate on, all are v *)
Definition rest_is (v : R) (k : nat) (x : list R) : Prop := Forall (fun a => a = v) (skipn k x).

(** the objectives taken one by one are the entries of the vector *)
Definition one_by_one (m : nat) (obj : nat -> list R -> R) (x : list R) : list R := map (fun k => obj k x) (seq 0 m).
