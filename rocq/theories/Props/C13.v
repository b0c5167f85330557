(** C13: GridSearch evaluates the whole grid and returns its first best point. *)
From Coq Require Import List Arith ZArith Bool.
From Verif.Base Require Import Num Instances.
From Verif.Model Require Import GridSearch.
From Verif.Spec Require Import GridSpec.
From Verif.Proof Require Import GridProof.
Import ListNotations.

(** [junk] is the uninitialised content of the working vector: it does not matter. *)
Theorem C13_grid_search :
  forall (N : Num), OrdLaws N -> forall (f : list nat -> N) categorical cats junk,
  length categorical = length cats -> length junk = length cats ->
  (existsb negb categorical = true -> grid_search f categorical cats junk = None) /\
  (existsb negb categorical = false -> exists s, grid_search f categorical cats junk = Some s /\
     g_log s = grid cats /\
     ((g_best s = nmax /\ g_params s = repeat 0 (length cats) /\
       forall p, In p (grid cats) -> nlt (f p) nmax = false) \/
      (exists before p later, grid cats = before ++ p :: later /\ g_params s = p /\ g_best s = f p /\
         nlt (f p) nmax = true /\
         (forall q, In q before -> nle (f q) (f p) = false) /\
         (forall q, In q later -> nlt (f q) (f p) = false)))).
Proof. intros. apply grid_search_ok; assumption. Qed.
Print Assumptions C13_grid_search.

(** [grid] is what it should be: every combination, exactly once. *)
Theorem C13_grid_complete :
  forall cats, NoDup (grid cats) /\
    forall p, In p (grid cats) <-> Forall2 (fun x c => x < c) p cats.
Proof. intros. split; [apply grid_nodup|apply grid_spec]. Qed.
Print Assumptions C13_grid_complete.

Example C13_example :
  exists s, grid_search (N := ZNum) (fun p => match p with [a; b] => ((Z.of_nat a - 1) * (Z.of_nat a - 1) + Z.abs (Z.of_nat b - 1))%Z | _ => 99%Z end)
              [true; true] [3; 3] [7; 7] = Some s /\ g_params s = [1; 1] /\ g_best s = 0%Z /\ length (g_log s) = 9.
Proof. eexists. split; [vm_compute; reflexivity|]. repeat split. Qed.
