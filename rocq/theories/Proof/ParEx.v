From Coq Require Import List Arith Bool ZArith Lia Permutation.
From Verif.Base Require Import Num Instances Size.
From Verif.Model Require Import Common SA ParallelSgd.
From Verif.Spec Require Import ParSpec.
Import ListNotations.

(** two threads, two functions; thread 1's request is overwritten by thread 0 *)
Definition ask1 (l : list (pev ZNum)) : bool := match l with PGrad 1 _ _ _ :: _ => true | _ => false end.
Definition race : list nat := [0; 0; 1; 1; 1; 0; 1; 1; 1; 0; 0; 0].
Definition race_run := pexec (N := ZNum) 1 [0; 1] 1%Z (fun _ _ => []) ask1 (fun _ => false) race
  {| s_it := [5]%Z; s_term := false; s_log := [] |} (start 1 2).
Lemma lost_request : finished 1 [0; 1] (snd race_run) = true /\
  par_asked (rev (s_log (fst race_run))) = true /\ s_term (fst race_run) = false.
Proof. repeat split. Qed.

(** a run: three functions x/2 each (gradient 1 at element 0), two threads with share 2 *)
Definition ex_sched (h : list (oev ZNum)) : list nat := concat (repeat [0; 1] 20).
Definition ex_run := psgd (N := ZNum) 2 0%Z true 2 2 (fun x => nth 0 x 0%Z) (fun _ => 2%Z) (fun _ l => rev l) (fun _ => false)
  (fun _ _ _ => [(0, 1%Z)]) (fun _ _ => false) (fun _ _ => false) ex_sched 3 5 [10; 7]%Z.
Lemma ex_run_value : exists tr, ex_run = Ret (10%Z, [4; 7]%Z, tr) /\
  map (fun '(o, es) => (o, computed es)) (epochs tr) = [([2; 1; 0], [(0, 2); (1, 0); (0, 1)])].
Proof. vm_compute. eexists. split; reflexivity. Qed.
