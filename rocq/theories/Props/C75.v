(** C75: who survives a generation of NSGA-II. *)
From Coq Require Import List Arith Bool Reals Lra Lia Permutation.
From Verif.Base Require Import Num Vec Instances.
From Verif.Model Require Import NSGA2.
From Verif.Spec Require Import ParetoSpec NSGA2Spec AGEMOEASpec SelectionSpec.
From Verif.Proof Require Import NSGA2Ex AGEMOEAEx SelectionProof SelectionRun SelectionEx.
Import ListNotations.

(** For a front in which no two members agree in an objective, the distances assigned are the
    crowding distances: at least numeric_limits::max() for members that are extreme in some
    objective, and otherwise the sum over the objectives of the distance between the two neighbours
    divided by the range.  Nobody else's distance changes, and every member's is positive. *)
Theorem C75_crowding : forall mx, (0 < mx)%R -> forall sorti, is_sort sorti ->
  forall (fs : list (list R -> R)) (objs : list (list R)) F (cd : list R),
  F <> [] -> tie_free objs (length fs) F -> NoDup F -> (forall i, In i F -> i < length cd) ->
  (forall i, In i F -> nth i cd 0%R = 0%R) ->
  let cd' := crowding (N := RNum mx) fs sorti objs cd F : list R in
  length cd' = length cd /\ (forall k, ~ In k F -> nth k cd' 0%R = nth k cd 0%R) /\
  (forall i, In i F -> crowding_distance mx objs (length fs) F i (nth i cd' 0%R) /\ (fs <> [] -> (0 < nth i cd' 0)%R)).
Proof. exact crowding_ok. Qed.
Print Assumptions C75_crowding.

(** The survivors of the last generation of a run, and so of every generation.  [r_parents] are the
    individuals it started with, [r_pop] those it left.  If different individuals differ by more
    than epsilon and no two parents agree in an objective, a parent that has no copy among the
    children survives exactly if no parent dominates it: crowding distances never decide, because
    children rank with the best whatever they are worth. *)
Theorem C75_survivors : forall mx, (0 < mx)%R ->
  forall n maxGen (cp mp ms eps : RNum mx) lb ub fs stop init rnd sortp sorti fuel x r,
  nsga2_good n maxGen lb ub fs init rnd sortp fuel x -> is_sort sortp -> is_sort sorti -> (0 <= eps)%R -> fs <> [] ->
  optimize n maxGen cp mp ms eps lb ub fs stop init rnd sortp sorti fuel x = NRet r ->
  exists children dropped, n <= length children /\
    (exists fuel gen, NSGA2.children n cp mp ms rnd fuel gen 0 (spread (length x) lb) (spread (length x) ub) (r_parents r) [] = NRet children) /\
    Permutation (r_pop r ++ dropped) (r_parents r ++ children) /\
    (apart eps (r_parents r ++ children) -> tie_free (map (objv fs) (r_parents r)) (length fs) (seq 0 n) ->
     forall i, i < n -> ~ In (nth i (r_parents r) []) children ->
       (In (nth i (r_parents r) []) (r_pop r) <-> best_in fs (r_parents r) i)).
Proof. exact optimize_survivors. Qed.
Print Assumptions C75_survivors.

(** So nothing is lost if no child is a copy of a parent: for every parent there is a survivor that
    is at least as good in every objective. *)
Theorem C75_no_loss : forall mx, (0 < mx)%R ->
  forall n maxGen (cp mp ms eps : RNum mx) lb ub fs stop init rnd sortp sorti fuel x r,
  nsga2_good n maxGen lb ub fs init rnd sortp fuel x -> is_sort sortp -> is_sort sorti -> (0 <= eps)%R -> fs <> [] ->
  optimize n maxGen cp mp ms eps lb ub fs stop init rnd sortp sorti fuel x = NRet r ->
  exists children,
    (exists fuel gen, NSGA2.children n cp mp ms rnd fuel gen 0 (spread (length x) lb) (spread (length x) ub) (r_parents r) [] = NRet children) /\
    (apart eps (r_parents r ++ children) -> tie_free (map (objv fs) (r_parents r)) (length fs) (seq 0 n) ->
     (forall p, In p (r_parents r) -> ~ In p children) ->
     forall p, In p (r_parents r) -> exists q, In q (r_pop r) /\ forall f, In f fs -> (f q <= f p)%R).
Proof. exact optimize_no_loss. Qed.
Print Assumptions C75_no_loss.

(** It is not so that a survivor is not dominated by anybody who was dropped: children are kept
    although parents that dominate them are dropped. *)
Theorem C75_worse_child_refuted : exists r, zrun (fun _ => false) 1 = NRet r /\
  exists p q, In p (r_parents r) /\ ~ In p (r_pop r) /\ In q (r_pop r) /\ ~ In q (r_parents r) /\
    Dominates (objv [zf1; zf2] p) (objv [zf1; zf2] q).
Proof. exact worse_child_kept. Qed.
Print Assumptions C75_worse_child_refuted.

(** A best parent that has a copy among the children can be lost, with its copy: the comparison
    looks individuals up by value, finds the copy, and takes it for a child. *)
Theorem C75_copied_best_refuted :
  nsga2_good (N := ZNum) 5 1 [-1000]%Z [1000]%Z [zf1; zf2] cinit crnd dsort 10 [0%Z] /\ is_sort dsort /\
  exists r, optimize (N := ZNum) 5 1 1%Z 1%Z 1%Z 0%Z [-1000]%Z [1000]%Z [zf1; zf2] (fun _ => false) cinit crnd dsort isort 10 [0%Z] = NRet r /\
  exists p, In p (r_parents r) /\ (forall q, In q (r_parents r) -> q = p \/ Dominates (objv [zf1; zf2] p) (objv [zf1; zf2] q)) /\
    (forall q, In q (r_pop r) -> Dominates (objv [zf1; zf2] p) (objv [zf1; zf2] q)).
Proof. exact copied_best_lost. Qed.
Print Assumptions C75_copied_best_refuted.

(** A run that meets every hypothesis: parents 5 3 4 6, children 55 65 75 85; the parent 3 is the
    only one that survives. *)
Example C75_ex : nsga2_good (N := RNum 1000) 4 1 [-1000]%R [1000]%R [rf1; rf2] rinit rrnd isort 10 [0%R] /\
  @is_sort (list R) isort /\ @is_sort nat isort /\
  exists r, optimize (N := RNum 1000) 4 1 1%R 1%R 1%R 0%R [-1000]%R [1000]%R [rf1; rf2] (fun _ => false) rinit rrnd isort isort 10 [0%R] = NRet r /\
    r_parents r = rparents /\
    (forall fuel gen cs, NSGA2.children (N := RNum 1000) 4 1%R 1%R 1%R rrnd fuel gen 0 (spread (N := RNum 1000) 1 [-1000]%R) (spread (N := RNum 1000) 1 [1000]%R) (r_parents r) [] = NRet cs ->
       cs = rchildren /\ apart 0 (r_parents r ++ cs) /\ (forall p, In p (r_parents r) -> ~ In p cs)) /\
    tie_free (map (objv [rf1; rf2]) (r_parents r)) 2 (seq 0 4) /\
    In [3%R] (r_pop r) /\ ~ In [5%R] (r_pop r).
Proof. exact real_run. Qed.
