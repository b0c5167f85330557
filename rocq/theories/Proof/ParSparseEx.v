From Coq Require Import List Arith Bool ZArith Reals Lra Lia Permutation.
From Verif.Base Require Import Num Instances Size.
From Verif.Model Require Import Common SA ParallelSgd Problems ProblemsN.
From Verif.Spec Require Import ParSpec ParSerialSpec.
From Verif.Proof Require Import SAProof ParProof ParRun ParSerial ParSparse.
Import ListNotations.

Lemma pexec_ext {N : Num} share order (step : N) grad grad' cbG cbS :
  (forall h j, grad h (nth j order 0) = grad' h (nth j order 0)) ->
  forall sched s ls, pexec share order step grad cbG cbS sched s ls = pexec share order step grad' cbG cbS sched s ls.
Proof.
  intros H. assert (P : forall t s l, pstep share order step grad cbG cbS t s l = pstep share order step grad' cbG cbS t s l).
  { intros t s [j ph]. unfold pstep. simpl. destruct ph; try reflexivity. rewrite H. reflexivity. }
  induction sched as [|t r IH]; intros s ls; [reflexivity|]. simpl. destruct (nth_error ls t); [|apply IH]. rewrite P.
  destruct (pstep _ _ _ _ _ _ _ _ _) as [[s' l']|]; apply IH.
Qed.
(** two threads with two functions each, in turn *)
Definition turns : list nat := concat (repeat [0; 1] 14).
Lemma turns_finish {N : Num} (step : N) (a : nat -> N) x0 term :
  finished 2 [0; 1; 2; 3] (snd (pexec 2 [0; 1; 2; 3] step (fun _ i => [(i, a i)]) (fun _ => false) (fun _ => false) turns
    {| s_it := x0; s_term := term; s_log := [] |} (start 2 2))) = true.
Proof. vm_compute. reflexivity. Qed.

Local Open Scope R_scope.
(** every thread reads the iterate at the start of the epoch *)
Definition old_reads mx (h0 : list (oev (RNum mx))) (h : list (pev (RNum mx))) (i : nat) : list (nat * R) :=
  match h0 with OEval x _ :: _ => nonzeros 0 (sparse_gradient x i 1) | _ => [] end.
Definition sparse_x0 : list R := [3; 2; 5 / 2; 5].
Lemma sparse_x0_grad j : sparse_fn (nth j [0; 1; 2; 3]%nat 0%nat) sparse_x0 = [(nth j [0; 1; 2; 3]%nat 0%nat, 2)].
Proof.
  rewrite sparse_fn_eq.
  assert (D : exists a, nth_error sparse_x0 (nth j [0; 1; 2; 3]%nat 0%nat) = Some a /\ 2 * a + co sparse_bi (nth j [0; 1; 2; 3]%nat 0%nat) = 2).
  { destruct j as [|[|[|[|j]]]]; simpl; try (eexists; split; [reflexivity|unfold co, sparse_bi; simpl; lra]).
    destruct j; simpl; eexists; split; try reflexivity; unfold co, sparse_bi; simpl; lra. }
  destruct D as (a & -> & ->). destruct (Req_EM_T 2 0); [lra|reflexivity].
Qed.
Lemma old_reads_run mx (h : R) : exists v xf full,
  psgd (N := RNum mx) 2 0 false 2 2 (fun _ => 0) (fun _ => h) (fun _ l => l) (fun _ => false) (old_reads mx)
    (fun _ _ => false) (fun _ _ => false) (fun _ => turns) 4 2 sparse_x0 = Ret (v, xf, full).
Proof.
  unfold psgd. 
  assert (LT : Rltb (Rabs (mx - 0)) 0 = false) by (destruct (Rltb_spec (Rabs (mx - 0)) 0) as [C|_]; [pose proof (Rabs_pos (mx - 0)); lra|reflexivity]).
  cbn -[pexec turns start sparse_x0 old_reads finished]. rewrite LT.
  set (tr := [OEval _ _; OBegin _]).
  assert (X : forall hh j, old_reads mx tr hh (nth j [0; 1; 2; 3]%nat 0%nat) = (fun _ i => [(i, (fun _ => 2) i)]) hh (nth j [0; 1; 2; 3]%nat 0%nat)).
  { intros hh j. exact (sparse_x0_grad j). }
  pose proof (turns_finish (N := RNum mx) h (fun _ => 2) sparse_x0 false) as F.
  rewrite <- (pexec_ext (N := RNum mx) 2 [0; 1; 2; 3]%nat h _ _ (fun _ => false) (fun _ => false) X turns) in F.
  destruct (pexec _ _ _ _ _ _ _ _ _) as [s ls] eqn:E.
  cbn [snd] in F. rewrite F. eexists _, _, _. reflexivity.
Qed.
