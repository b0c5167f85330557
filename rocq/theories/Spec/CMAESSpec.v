(** What CMA-ES does, as seen from the events. *)
From Coq Require Import List Arith Bool Permutation.
From Verif.Base Require Import Num Vec SortIdx.
From Verif.Model Require Import Common.
Import ListNotations.

(** The batches cover the n functions, each once and in order. *)
Definition covers (n : nat) (cs : list (nat * nat)) : Prop :=
  flat_map (fun c => seq (fst c) (snd c)) cs = seq 0 n.

Section Spec.
  Context {N : Num}.
  Notation vec := (list N).
  Notation ev := (ev N vec vec).
  Variable feval : vec -> nat -> nat -> N.
  Variable cs : list (nat * nat).

  (** the values of the batches at x, their sum, and the sums so far *)
  Definition values (x : vec) : list N := map (fun c => feval x (fst c) (snd c)) cs.
  Definition total (x : vec) : N := fold_left nadd (values x) n0.
  Fixpoint partials (acc : N) (l : list N) : list N :=
    match l with [] => [] | v :: r => nadd acc v :: partials (nadd acc v) r end.
  (** what the callbacks see of an evaluation at x *)
  Definition looks (x : vec) : list ev := map (Ev x) (partials n0 (values x)).

  Variable tf : vec -> vec.
  Variable lambda : nat.
  Variable w : list N.
  Variable A : Type.
  Variable sample : nat -> A -> option (list vec).
  Variable adapt : nat -> A -> N -> list vec -> list nat -> vec -> A * N.

  (** the weighted sum of the steps listed first in idx *)
  Definition weighted (steps : list vec) (idx : list nat) (step : vec) : Prop :=
    exists s l, map2 (fun c k => vscale c (nth k steps [])) w idx = s :: l /\ step = fold_left vadd l s.

  (** [gens i m sigma a b es bs sigma' b']: generations i, i+1, ... from mean m, step
      size sigma, distribution a and best mean b; events es, the best means after
      each generation bs, final step size sigma', best mean b'. *)
  Inductive gens : nat -> vec -> N -> A -> vec -> list ev -> list vec -> N -> vec -> Prop :=
  | gens_none i m sigma a b : gens i m sigma a b [] [] sigma b
  | gens_more i m sigma a b steps order idx step m' a' sigma1 b1 es bs sigma' b' :
      length steps = lambda -> Permutation order (seq 0 lambda) ->
      (* the steps are those drawn from the distribution, in the order of the draws *)
      sample i a = Some (map (fun k => nth k steps []) order) ->
      let member s := tf (vadd m (vscale sigma s)) in
      (* the members, in ascending order of their objectives *)
      sorted_index (map (fun s => total (member s)) steps) idx ->
      weighted steps idx step ->
      m' = vadd m (vscale sigma step) ->
      (a', sigma1) = adapt i a sigma steps idx step ->
      b1 = (if nlt (total (tf m')) (total (tf b)) then m' else b) ->
      gens (S i) m' sigma1 a' b1 es bs sigma' b' ->
      gens i m sigma a b
        (flat_map (fun k => looks (member (nth k steps []))) order ++ looks (tf m') ++
         (if nlt (total (tf m')) (total (tf b)) then [St (tf m')] else []) ++ es)
        (b1 :: bs) sigma' b'.
End Spec.

(** The last p + 1 changes in l (oldest first) were below the tolerance. *)
Definition calm {N : Num} (tolerance : N) (p : nat) (l : list N) : Prop :=
  p + 2 <= length l /\
  forall j u v, length l <= j + (p + 2) -> nth_error l j = Some u -> nth_error l (S j) = Some v ->
    nlt (nabs (nsub u v)) tolerance = true.
