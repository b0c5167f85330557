(** Specification of what an augmented Lagrangian run should return. *)
From Coq Require Import List Arith Reals.
From Verif.Spec Require Import AugLagSpec.
Import ListNotations.
Local Open Scope R_scope.

(** sum of the squares of a vector *)
Definition squares (l : list R) : R := fold_right (fun a s => a ^ 2 + s) 0 l.
(** all constraints hold *)
Definition feasible (cs : list (list R -> R)) (x : list R) : Prop := forall c, In c cs -> c x = 0.
(** how far a point is from satisfying them *)
Definition violated (cs : list (list R -> R)) (x : list R) : R := squares (map (fun c => c x) cs).
(** Up to [eps] no point with [p] coordinates has a smaller augmented Lagrangian than the
    point the inner optimizer ends at, whatever its history, its state, the multipliers and
    the start, for penalty parameters above [least]. *)
Definition minimises {E S : Type} (p : nat) (eps least : R) (f : list R -> R) (cs : list (list R -> R))
    (solve : list E -> S -> list R -> R -> list R -> list R * S) : Prop :=
  forall h s lambda sigma x z, (length cs <= length lambda)%nat -> least < sigma -> length z = p ->
    augmented f cs lambda sigma (fst (solve h s lambda sigma x)) <= augmented f cs lambda sigma z + eps.

(** ** Convex problems *)
(** the point x + t (z - x) of the segment from [x] to [z] *)
Fixpoint between (t : R) (x z : list R) : list R :=
  match x, z with a :: x', b :: z' => (a + t * (b - a)) :: between t x' z' | _, _ => [] end.
(** convex objective and affine constraints, on points with [p] coordinates *)
Definition convex_problem (p : nat) (f : list R -> R) (cs : list (list R -> R)) : Prop :=
  forall x z t, length x = p -> length z = p -> 0 <= t <= 1 ->
    f (between t x z) <= (1 - t) * f x + t * f z /\
    forall c, In c cs -> c (between t x z) = (1 - t) * c x + t * c z.
(** [best] satisfies the constraints and [ls] are optimal multipliers for it: no point has
    a smaller Lagrangian f - sum ls_i c_i *)
Definition multipliers (p : nat) (f : list R -> R) (cs : list (list R -> R)) (best ls : list R) : Prop :=
  length best = p /\ length ls = length cs /\ feasible cs best /\
  forall x, length x = p -> f best <= f x - csum (fun l (c : list R -> R) => l * c x) ls cs.
(** squared distance of two vectors *)
Fixpoint apart (a b : list R) : R :=
  match a, b with u :: a', v :: b' => (u - v) ^ 2 + apart a' b' | _, _ => 0 end.
(** the inner optimizer finds minimisers with [p] coordinates, for every positive penalty parameter *)
Definition exactly {E S : Type} (p : nat) (f : list R -> R) (cs : list (list R -> R))
    (solve : list E -> S -> list R -> R -> list R -> list R * S) : Prop :=
  minimises p 0 0 f cs solve /\ forall h s lambda sigma x, length (fst (solve h s lambda sigma x)) = p.
