(** What a particle swarm does, as seen from the events. *)
From Coq Require Import List Arith Bool ZArith.
From Verif.Base Require Import Num Vec.
From Verif.Model Require Import Common.
From Verif.Spec Require Import DESpec.
Import ListNotations.

Section Spec.
  Context {N : Num}.
  Notation vec := (list N).
  Notation ev := (ev N vec vec).
  Variable f : vec -> N.
  Variable velocity : nat -> list vec -> list vec -> list vec -> list N -> list vec.

  (** Personal bests pb become pb' when the first m particles are looked at: a
      particle's best is replaced by its position exactly if that is better. *)
  Definition improved (m : nat) (pos pb pb' : list vec) : Prop :=
    length pb' = length pb /\
    forall j y b, nth_error pos j = Some y -> nth_error pb j = Some b ->
      nth_error pb' j = Some (if (j <? m) && nlt (f y) (f b) then y else b).

  Definition seen (pos : list vec) : list ev := map (fun y => Ev y (f y)) pos.

  (** [iterations it pos vel pb es bs pb']: iterations it, it+1, ... from the given
      positions, velocities and personal bests; the events are es, the swarm bests
      after each iteration bs, the final personal bests pb'. *)
  Inductive iterations : nat -> list vec -> list vec -> list vec -> list ev -> list vec -> list vec -> Prop :=
  | it_none it pos vel pb : iterations it pos vel pb [] [] pb
  | it_more it pos vel pb m m' pb1 b es bs pb' :
      (* all are evaluated, or the run is stopped after m of them, of which the last
         may be ignored *)
      (m = length pos /\ m' = m \/ 0 < m <= length pos /\ m - 1 <= m' <= m /\ es = []) ->
      improved m' pos pb pb1 -> is_best f pb1 b ->
      iterations (S it) (map2 vadd pos (velocity it pos vel pb1 (map f pb1))) (velocity it pos vel pb1 (map f pb1)) pb1 es bs pb' ->
      iterations it pos vel pb (seen (firstn m pos) ++ St b :: es) (b :: bs) pb'.
End Spec.
