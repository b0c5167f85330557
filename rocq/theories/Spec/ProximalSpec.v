(** What a projection is. *)
From Coq Require Import List Arith Reals Permutation.
From Verif.Base Require Import Num Vec.
From Verif.Spec Require Import LpSpec.
Import ListNotations.
Local Open Scope R_scope.

(** the 1-norm and the squared Euclidean distance *)
Definition norm1 (v : list R) : R := sumR (map Rabs v).
Definition dist2 (v y : list R) : R := sumR (map2 (fun a b => (a - b) * (a - b)) v y).
(** the number of zero elements *)
Definition zero_dec (x : R) : {x = 0} + {x <> 0} := Req_EM_T x 0.
Fixpoint zeros_of (v : list R) : nat :=
  match v with [] => O | x :: r => ((if zero_dec x then 1 else 0) + zeros_of r)%nat end.
(** [sortd] sorts in descending order *)
Definition sorts_down (sortd : list R -> list R) : Prop :=
  forall l, Permutation (sortd l) l /\
    forall i j a b, (i < j)%nat -> nth_error (sortd l) i = Some a -> nth_error (sortd l) j = Some b -> b <= a.
