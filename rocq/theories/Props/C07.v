(** C07: EarlyStopAtMinLoss. *)
From Coq Require Import List Arith ZArith Bool Reals.
From Verif.Base Require Import Num Instances.
From Verif.Model Require Import Callbacks.
From Verif.Spec Require Import CallbacksSpec.
From Verif.Proof Require Import CallbacksProof.
Import ListNotations.

(** After the epochs [objs ++ [o]] the callback answers true iff the last
    [max 1 patience] objectives contain no new minimum with respect to all the
    objectives before them ([new_min], Spec/CallbacksSpec.v; NaN is never one). *)
Theorem C07_early_stop_at_min_loss :
  forall (N : Num), OrdLaws N -> nisnan (nmax (n := N)) = false ->
  forall (patience : nat) (objs : list N) (o : N),
  last (snd (es_run patience es_init (objs ++ [o]))) false = true <->
  exists before recent, objs ++ [o] = before ++ recent /\ length recent = Nat.max 1 patience /\
    forall v, In v recent -> ~ new_min before v.
Proof. intros. apply early_stop; assumption. Qed.
Print Assumptions C07_early_stop_at_min_loss.

(** The hypotheses hold for IEEE doubles. *)
Corollary C07_early_stop_binary64 :
  forall (patience : nat) (objs : list F64) (o : F64),
  last (snd (es_run patience es_init (objs ++ [o]))) false = true <->
  exists before recent, objs ++ [o] = before ++ recent /\ length recent = Nat.max 1 patience /\
    forall v, In v recent -> ~ new_min before v.
Proof. intros. apply C07_early_stop_at_min_loss; [apply F64_ord|reflexivity]. Qed.
Print Assumptions C07_early_stop_binary64.

(** 5, 3, NaN, 4, 3, 2, 2 with patience 3: stops at the fifth epoch, not later. *)
Example C07_example :
  snd (es_run 3 es_init [fz 5; fz 3; fnan; fz 4; fz 3; fz 2; fz 2])
  = [false; false; false; false; true; false; false].
Proof. vm_compute. reflexivity. Qed.
