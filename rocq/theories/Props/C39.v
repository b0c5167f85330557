(** C39: fast non-dominated sorting builds the Pareto fronts. *)
From Coq Require Import List Arith Bool ZArith Lia.
From Verif.Base Require Import Num Instances.
From Verif.Model Require Import Pareto.
From Verif.Spec Require Import ParetoSpec.
From Verif.Proof Require Import ParetoProof ParetoMore.
Import ListNotations.

(** For the first n members of a table of objectives without NaN (NSGA2: n = populationSize,
    AGEMOEA: all): the loop ends after at most n + 1 turns, the fronts are the Pareto fronts of
    these members, the rank of a member is the number of its front, and the ranks of the others
    are left alone. *)
Theorem C39_sort : forall (N : Num), OrdLaws N -> forall m n (objs : list (list N)) fuel ranks,
  table m objs -> n <= length objs -> n <= length ranks -> n < fuel ->
  exists fronts ranks', fnds n (dom_at objs) fuel ranks = Some (fronts, ranks') /\
    pareto_fronts n (beats objs) fronts /\
    length ranks' = length ranks /\
    (forall k i, in_front fronts k i -> nth_error ranks' i = Some k) /\
    (forall i, n <= i -> nth_error ranks' i = nth_error ranks i).
Proof. exact @fnds_table. Qed.
Print Assumptions C39_sort.

(** The first front is the set of members no other member dominates. *)
Theorem C39_first : forall n beats fronts, 0 < n -> pareto_fronts n beats fronts ->
  forall i, in_front fronts 0 i <-> i < n /\ forall j, j < n -> ~ beats j i.
Proof. exact front_zero. Qed.
Print Assumptions C39_first.

(** The fronts are determined: two lists of fronts for the same members have the same members
    front by front. *)
Theorem C39_unique : forall n beats f1 f2, pareto_fronts n beats f1 -> pareto_fronts n beats f2 ->
  forall k i, in_front f1 k i <-> in_front f2 k i.
Proof. exact fronts_unique. Qed.
Print Assumptions C39_unique.

(** Members of one front do not dominate each other. *)
Theorem C39_within : forall n beats fronts, pareto_fronts n beats fronts ->
  forall k i j, in_front fronts k i -> in_front fronts k j -> ~ beats i j.
Proof. exact front_antichain. Qed.
Print Assumptions C39_within.

(** With NaN objectives members can be lost: here all four, and there is no first front. *)
Theorem C39_nan_refuted : exists (objs : list (list F64)),
  (forall P, In P objs -> length P = 3) /\ length objs = 4 /\
  fnds 4 (dom_at objs) 10 [0; 0; 0; 0] = Some ([], [0; 0; 0; 0]).
Proof.
  exists [[fz 0; fnan; fz 1]; [fz 1; fz 0; fnan]; [fnan; fz 1; fz 0]; [fz 0; fnan; fz 1]].
  split; [|split; reflexivity].
  intros P H. cbn in H. repeat destruct H as [<-|H]; try reflexivity. destruct H.
Qed.
Print Assumptions C39_nan_refuted.

Example C39_ex : fnds 5 (dom_at [[1; 5]; [2; 2]; [3; 3]; [4; 4]; [2; 6]]%Z) 6 [9; 9; 9; 9; 9; 9]
  = Some ([[0; 1]; [2; 4]; [3]], [0; 0; 1; 2; 1; 9]).
Proof. reflexivity. Qed.
