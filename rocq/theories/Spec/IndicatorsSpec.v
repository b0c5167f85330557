(** Distances, coverage and the indicators as formulas over the reals. *)
From Coq Require Import List Reals.
From Verif.Spec Require Import LpSpec.
Import ListNotations.
Local Open Scope R_scope.

(** Euclidean distance of two points with the same number of coordinates *)
Definition dist2 (a z : list R) : R :=
  sqrt (sumR (map (fun q => (fst q - snd q) * (fst q - snd q)) (combine a z))).
(** the same, but coordinates in which [a] is better than [z] do not count *)
Definition dist2_plus (a z : list R) : R :=
  sqrt (sumR (map (fun q => Rmax (fst q - snd q) 0 * Rmax (fst q - snd q) 0) (combine a z))).

(** [m] is the least value of [d] over the front *)
Definition least {A} (d : A -> R) (front : list A) (m : R) : Prop :=
  (exists a, In a front /\ d a = m) /\ forall a, In a front -> m <= d a.

(** [a] is in no coordinate worse than [z] *)
Definition weakly_dominates (a z : list R) : Prop := forall q, In q (combine a z) -> fst q <= snd q.

(** every point of the reference front is matched by a point of the front within factor [e] *)
Definition covers (front ref : list (list R)) (e : R) : Prop :=
  forall z, In z ref -> exists a, In a front /\ forall q, In q (combine a z) -> fst q <= e * snd q.

(** two non-empty fronts with k >= 1 objectives and all values of [d] below [mx], the greatest
    representable number *)
Record fronts (k : nat) (front ref : list (list R)) : Prop := {
  fr_k : (1 <= k)%nat;
  fr_front : front <> [];
  fr_ref : ref <> [];
  fr_dim : forall a, In a front \/ In a ref -> length a = k
}.
