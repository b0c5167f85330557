(** C41: what MOEAD::Optimize keeps and reports. *)
From Coq Require Import List Arith Bool ZArith Lia Permutation Reals Lra.
From Verif.Base Require Import Num Vec Instances SortIdx.
From Verif.Model Require Import Pareto NSGA2 MOEAD.
From Verif.Spec Require Import ParetoSpec NSGA2Spec MOEADSpec.
From Verif.Proof Require Import MOEADProof MOEADRun MOEADEx.
Import ListNotations.
Local Open Scope nat_scope.

(** For every objective tuple, decomposition policy, random stream, sort and callback: the call
    ends, every child obeys [child_ok] (bounds, ideal point, at most maxReplace replacements, only
    by strictly better values), and the report is as [moead_reported] says. *)
Theorem C41_report : forall (N : Num), OrdLaws N ->
  forall n maxGen (cp np : N) ns (di dw : N) maxReplace (lb ub : list N) apply weights fs stop npow ssort init shuf shuf_front rnd rows x,
  moead_good n ns np lb ub weights fs ssort init shuf shuf_front rnd x ->
  exists r, moead n maxGen cp np ns di dw maxReplace lb ub apply weights fs stop npow ssort init shuf shuf_front rnd rows x = NRet r /\
    moead_reported n ns maxGen maxReplace lb ub apply weights fs stop x r.
Proof. exact @moead_ok. Qed.
Print Assumptions C41_report.

(** Invalid population and neighbourhood sizes are rejected. *)
Theorem C41_rejects : forall (N : Num) n maxGen (cp np : N) ns (di dw : N) maxReplace (lb ub : list N) apply weights fs stop npow ssort init shuf shuf_front rnd rows x,
  n < 3 \/ ns < 2 \/ n - 1 < ns ->
  moead n maxGen cp np ns di dw maxReplace lb ub apply weights fs stop npow ssort init shuf shuf_front rnd rows x = NThrow.
Proof. exact @moead_throws. Qed.
Print Assumptions C41_rejects.

(** If no other weight coincides with weight i then i is not its own neighbour. *)
Theorem C41_self : forall (N : Num) (weights : list (list N)) k i s l, nearest weights k i s l -> i < length weights ->
  (forall j, j < length weights -> j <> i ->
     nlt (dist (nth i weights []) (nth i weights [])) (dist (nth i weights []) (nth j weights [])) = true) ->
  s = i /\ ~ In i l.
Proof. exact nearest_self. Qed.
Print Assumptions C41_self.

(** Over the reals the weighted average prefers a dominating vector strictly (positive weights) ... *)
Theorem C41_weighted : forall mx (w z f g : list (RNum mx)), length w = length f -> length f = length g ->
  (forall v : R, In v w -> (0 < v)%R) -> Dominates (N := RNum mx) f g ->
  (weighted_average (N := RNum mx) w z f < weighted_average (N := RNum mx) w z g)%R.
Proof. exact weighted_mono. Qed.
Print Assumptions C41_weighted.

(** ... and Tchebycheff never ranks it behind (non-negative weights, ideal point nowhere worse). *)
Theorem C41_tchebycheff : forall mx (w z f g : list (RNum mx)), w <> [] -> length w = length f -> length f = length g ->
  length f = length z -> (forall v : R, In v w -> (0 <= v)%R) ->
  nowhere_worse (N := RNum mx) z f -> nowhere_worse (N := RNum mx) f g ->
  (tchebycheff (N := RNum mx) w z f <= tchebycheff (N := RNum mx) w z g)%R.
Proof. exact tcheby_mono. Qed.
Print Assumptions C41_tchebycheff.

(** Penalty boundary intersection with its default penalty can prefer a dominated vector. *)
Theorem C41_pbi_refuted : forall mx, exists w z f g : list (RNum mx),
  Dominates (N := RNum mx) f g /\ nowhere_worse (N := RNum mx) z f /\
  (pbi (N := RNum mx) 5%R w z g < pbi (N := RNum mx) 5%R w z f)%R.
Proof. intros mx. exists [3; 4]%R, [0; 0]%R, [1; 0]%R, [1; 1]%R. exact (pbi_prefers_dominated mx). Qed.
Print Assumptions C41_pbi_refuted.

(** ParetoSet() can hold dominated members, and the returned value need not be the least sum of
    objectives in it (the loop visits as many members as there are objectives). *)
Theorem C41_pareto_refuted : exists (r : @mres ZNum), mz_run [mz_f] = NRet r /\
  (exists p q, In p (q_set r) /\ In q (q_set r) /\ Dominates (objv [mz_f] p) (objv [mz_f] q)) /\
  (exists p, In p (q_set r) /\ (vsum (N := ZNum) (objv [mz_f] p) < q_val r)%Z).
Proof. exact pareto_false. Qed.
Print Assumptions C41_pareto_refuted.

(** With more objectives than individuals that loop reads past the end of the population. *)
Theorem C41_objectives_refuted : mz_run [mz_f; mz_f; mz_f; mz_f] = NBad.
Proof. exact many_objectives. Qed.
Print Assumptions C41_objectives_refuted.

(** Of an iterate with several columns only the first is crossed over and mutated: everything after
    the first [rows] elements of a child is clamped memory, independent of the parents. *)
Theorem C41_columns_refuted : forall (N : Num) (cp di dw : N) npow w rows lo hi p1 p2 p3 i,
  length lo = length (w_blank w) -> length hi = length (w_blank w) -> rows <= i < length (w_blank w) ->
  nth_error (reproduce cp di dw npow w rows lo hi p1 p2 p3) i =
  Some (clip1 (nth i lo n0) (nth i hi n0) (nth i (w_blank w) n0)).
Proof. exact later_columns. Qed.
Print Assumptions C41_columns_refuted.

(** A parent drawn "from the neighbourhood" need not be a neighbour. *)
Theorem C41_mating_refuted : exists n col a b, mating n col true 0 0 = Some (a, b) /\ ~ In a col.
Proof. exists 5, [1; 3], 2, 1. exact mating_leaves. Qed.
Print Assumptions C41_mating_refuted.

Example C41_ex_hyp : moead_good (N := ZNum) 3 2 1%Z [-9]%Z [9]%Z [[1]; [1]; [1]]%Z [mz_f] isort_index mz_init
    (fun _ => [0; 1; 2]) (fun _ => [2; 0; 1]) mz_rnd [0%Z].
Proof. exact mz_good. Qed.
Example C41_ex_run : exists r, mz_run [mz_f] = NRet r /\ q_set r = [[4]; [3]; [3]]%Z /\ q_val r = 4%Z.
Proof. exact mz_run1. Qed.
Example C41_ex_dom : forall mx, Dominates (N := RNum mx) [1; 0]%R [1; 1]%R.
Proof. intros mx. apply (pbi_prefers_dominated mx). Qed.
