(** Fair coins, averages over all their outcomes, and quadratic objectives. *)
From Coq Require Import List Arith Bool Reals.
From Verif.Spec Require Import Gradient ConvergeSpec.
Import ListNotations.
Local Open Scope R_scope.

(** the 2^d outcomes of d coins *)
Fixpoint flips (d : nat) : list (list bool) :=
  match d with O => [[]] | S m => map (cons true) (flips m) ++ map (cons false) (flips m) end.
(** the outcomes of n rounds of d coins each *)
Fixpoint draws (n d : nat) : list (list (list bool)) :=
  match n with O => [[]] | S m => flat_map (fun b => map (cons b) (draws m d)) (flips d) end.
(** the mean of [v] over a list of equally likely outcomes *)
Definition mean {A} (outcomes : list A) (v : A -> R) : R :=
  sumR (map v outcomes) / INR (length outcomes).
(** heads 1, tails -1 *)
Definition signs (b : list bool) : list R := map (fun b : bool => if b then 1 else -1) b.
(** A quadratic function in d variables: its gradient, and its curvature h -> h^T A h, which
    lies between mu |h|^2 and L |h|^2. *)
Record quadratic (d : nat) (f : list R -> R) (grad : list R -> list R) (curv : list R -> R) (mu L : R) : Prop :=
  { q_len : forall x, length x = d -> length (grad x) = d;
    q_exp : forall x h t, length x = d -> length h = d ->
      f (along x h t) = f x + t * dotR (grad x) h + t * t * (curv h / 2);
    q_low : forall h, length h = d -> mu * sqn h <= curv h;
    q_high : forall h, length h = d -> curv h <= L * sqn h }.
Fixpoint prodR (l : list R) : R := match l with [] => 1 | a :: r => a * prodR r end.
