(** C08: StoreBestCoordinates. *)
From Coq Require Import List Arith ZArith Bool Reals.
From Verif.Base Require Import Num Instances.
From Verif.Model Require Import Callbacks.
From Verif.Spec Require Import CallbacksSpec.
From Verif.Proof Require Import CallbacksProof.
Import ListNotations.

(** Either nothing reported was below DBL_MAX and nothing is stored, or the stored
    pair is the first event with the least objective (events with NaN never
    count). *)
Theorem C08_store_best_coordinates :
  forall (N : Num), OrdLaws N -> forall (X : Type) (evs : list (X * N)),
  (sb_run evs = sb_init /\ forall x o, In (x, o) evs -> nlt o nmax = false) \/
  (exists before x o later, evs = before ++ (x, o) :: later /\
     sb_run evs = {| sb_obj := o; sb_x := Some x |} /\ nlt o nmax = true /\
     (forall y w, In (y, w) before -> nle w o = false) /\
     (forall y w, In (y, w) later -> nlt w o = false)).
Proof. intros. apply store_best; assumption. Qed.
Print Assumptions C08_store_best_coordinates.

Example C08_example :
  sb_run [(1, fnan); (2, fz 5); (3, fz 4); (4, fz 4); (5, finf)]
  = {| sb_obj := fz 4; sb_x := Some 3 |} /\ OrdLaws F64.
Proof. split; [vm_compute; reflexivity|apply F64_ord]. Qed.
