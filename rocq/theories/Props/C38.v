(** C38: Pareto dominance is a strict partial order. *)
From Coq Require Import List Arith Bool ZArith Lia.
From Verif.Base Require Import Num Instances.
From Verif.Model Require Import Pareto.
From Verif.Spec Require Import ParetoSpec.
From Verif.Proof Require Import ParetoProof.
Import ListNotations.

(** Dominates() answers whether the first vector is nowhere worse and somewhere better. *)
Theorem C38_meaning : forall (N : Num), OrdLaws N -> forall P Q : list N, no_nans P -> no_nans Q ->
  dominates P Q = true <-> Dominates P Q.
Proof. exact @dominates_spec. Qed.
Print Assumptions C38_meaning.

(** No vector dominates itself, NaN or not. *)
Theorem C38_irreflexive : forall (N : Num), OrdLaws N -> forall P : list N, dominates P P = false.
Proof. exact @dominates_irrefl. Qed.
Print Assumptions C38_irreflexive.

(** Two vectors never dominate each other, NaN or not. *)
Theorem C38_asymmetric : forall (N : Num), OrdLaws N -> forall P Q : list N,
  dominates P Q = true -> dominates Q P = false.
Proof. exact @dominates_asym. Qed.
Print Assumptions C38_asymmetric.

Theorem C38_transitive : forall (N : Num), OrdLaws N -> forall P Q R : list N,
  length P = length Q -> length Q = length R -> no_nans P -> no_nans Q -> no_nans R ->
  dominates P Q = true -> dominates Q R = true -> dominates P R = true.
Proof. exact @dominates_trans. Qed.
Print Assumptions C38_transitive.

(** The answer for members p and q of a table of objectives. *)
Theorem C38_members : forall (N : Num), OrdLaws N -> forall m (objs : list (list N)) p q, table m objs ->
  p < length objs -> q < length objs -> dom_at objs p q = true <-> beats objs p q.
Proof. exact @dom_at_iff. Qed.
Print Assumptions C38_members.

(** With NaNs transitivity fails: each of three vectors dominates the next, cyclically. *)
Theorem C38_nan_refuted : exists P Q R : list F64,
  length P = 3 /\ length Q = 3 /\ length R = 3 /\
  dominates P Q = true /\ dominates Q R = true /\ dominates R P = true.
Proof.
  exists [fz 0; fnan; fz 1], [fz 1; fz 0; fnan], [fnan; fz 1; fz 0]. repeat split; reflexivity.
Qed.
Print Assumptions C38_nan_refuted.

Example C38_ex : dominates [1; 2; 3]%Z [1; 4; 3]%Z = true /\ dominates [1; 2; 3]%Z [0; 4; 3]%Z = false /\
  dominates [1; 2]%Z [1; 2]%Z = false.
Proof. repeat split; reflexivity. Qed.
Example C38_ex_hyp : table (N := ZNum) 2 [[1; 2]; [0; 5]; [3; 3]]%Z.
Proof. intros P H. cbn in H. destruct H as [<-|[<-|[<-|[]]]]; (split; [reflexivity|]); intros a _; reflexivity. Qed.
Example C38_ex_trans : dominates [1; 2]%Z [3; 3]%Z = true /\ dominates [3; 3]%Z [3; 4]%Z = true.
Proof. split; reflexivity. Qed.
