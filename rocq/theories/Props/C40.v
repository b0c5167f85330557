(** C40: what NSGA2::Optimize reports. *)
From Coq Require Import List Arith Bool ZArith Lia Permutation.
From Verif.Base Require Import Num Vec Instances.
From Verif.Model Require Import Pareto NSGA2.
From Verif.Spec Require Import ParetoSpec NSGA2Spec.
From Verif.Proof Require Import NSGA2Proof NSGA2Ex.
Import ListNotations.

(** For every objective tuple, random stream, sort and callback: the call ends, stays within the
    bounds, and reports what [reported] says (ParetoFront() is the non-dominated front of the
    last population that was evaluated). *)
Theorem C40_report : forall (N : Num), OrdLaws N ->
  forall n maxGen (cp mp ms eps : N) (lb ub : list N) fs stop init rnd sortp sorti fuel x,
  nsga2_good n maxGen lb ub fs init rnd sortp fuel x ->
  exists r, optimize n maxGen cp mp ms eps lb ub fs stop init rnd sortp sorti fuel x = NRet r /\
    reported n maxGen lb ub fs stop x r.
Proof. exact @optimize_ok. Qed.
Print Assumptions C40_report.

(** Populations of one to three are rejected. *)
Theorem C40_small : forall (N : Num) n maxGen (cp mp ms eps : N) lb ub fs stop init rnd sortp sorti fuel x,
  1 <= n <= 3 -> optimize n maxGen cp mp ms eps lb ub fs stop init rnd sortp sorti fuel x = NThrow.
Proof. exact @small_throws. Qed.
Print Assumptions C40_small.

(** ParetoFront() need not hold the objectives of ParetoSet(), the final iterate can be dominated
    by a point the run has evaluated, and the returned value can be below everything the
    objectives can return. *)
Theorem C40_match_refuted :
  exists n gens (lb ub : list ZNum) fs init rnd (r : @nres ZNum),
    nsga2_good n gens lb ub fs init rnd isort 10 [0%Z] /\
    optimize n gens 1%Z 1%Z 1%Z 0%Z lb ub fs (fun _ => false) init rnd isort isort 10 [0%Z] = NRet r /\
    r_front r <> map (objv fs) (r_set r) /\
    (exists p, In p (r_parents r) /\ Dominates (objv fs p) (objv fs (r_x r))) /\
    (forall f x, In f fs -> length x = 1 -> (r_val r < f x)%Z).
Proof. exact matches_false. Qed.
Print Assumptions C40_match_refuted.

(** Without a generation, or without a population, the code reads fronts[0] of an empty vector. *)
Theorem C40_no_generation_refuted : forall (N : Num) n (cp mp ms eps : N) lb ub fs stop init rnd sortp sorti fuel x,
  n = 0 \/ 4 <= n -> optimize n 0 cp mp ms eps lb ub fs stop init rnd sortp sorti fuel x = NBad.
Proof. exact @no_generation. Qed.
Print Assumptions C40_no_generation_refuted.
Theorem C40_no_population_refuted : forall (N : Num) maxGen (cp mp ms eps : N) lb ub fs stop init rnd sortp sorti fuel x,
  (forall c, sortp c [] = []) ->
  optimize 0 maxGen cp mp ms eps lb ub fs stop init rnd sortp sorti (S fuel) x = NBad.
Proof. exact @no_population. Qed.
Print Assumptions C40_no_population_refuted.

(** NaN objectives can lead to the same read. *)
Theorem C40_nan_refuted :
  exists fs init rnd, (forall i, length (init i) = 1) /\ (forall g j, good_draws 4 1 (rnd g j)) /\
  optimize (N := F64) 4 1 (fz 1) (fz 1) (fz 1) (fz 0) [fz (-9)] [fz 9] fs (fun _ => false) init rnd isort isort 10 [fz 0] = NBad.
Proof.
  exists nan_fs, nan_init, nan_rnd. split; [reflexivity|]. split; [|exact nan_bad].
  intros g j. repeat split; cbn; lia.
Qed.
Print Assumptions C40_nan_refuted.

(** EvaluateObjectives calls Evaluate() n + n^2 + ... + n^m times for n individuals and m
    objectives, and fills in the objectives of the first n individuals only; the rest stay zero. *)
Theorem C40_evaluations : forall (N : Num) n (fs : list (list N -> N)) pop,
  snd (evaluate n fs 0 pop (repeat (repeat n0 (length fs)) (length pop), 0)) = calls_for n (length fs).
Proof. exact @evaluate_calls. Qed.
Print Assumptions C40_evaluations.
Theorem C40_objectives : forall (N : Num) n fs (pop : list (list N)), n <= length pop ->
  fst (evaluate n fs 0 pop (repeat (repeat n0 (length fs)) (length pop), 0)) =
  map (objv fs) (firstn n pop) ++ repeat (repeat n0 (length fs)) (length pop - n).
Proof. exact @evaluate_table. Qed.
Print Assumptions C40_objectives.

(** Crossover: whatever the draw, the second child is a copy of the first parent (where
    a * 0 + a * 1 = a holds, as it does for finite numbers). *)
Theorem C40_crossover_refuted : forall (N : Num) (cp : N) idx pa pb,
  (forall a : N, nadd (nmul a (nsub n1 n1)) (nmul a n1) = a) ->
  (forall a : N, nadd (nmul a (nsub n1 n0)) (nmul a n0) = a) ->
  length idx = length pa -> snd (crossover cp idx pa pb) = pa.
Proof. exact childB_is_A. Qed.
Print Assumptions C40_crossover_refuted.

Example C40_ex_hyp : nsga2_good (N := ZNum) 4 2 [-1000]%Z [1000]%Z [zf1; zf2] zinit zrnd isort 10 [0%Z].
Proof. apply z_good. lia. Qed.
Example C40_ex_crossover : snd (crossover (N := ZNum) 1%Z [0; 5]%Z [7; 8]%Z [1; 2]%Z) = [7; 8]%Z /\
  (forall a : ZNum, nadd (nmul a (nsub n1 n1)) (nmul a n1) = a) /\
  (forall a : ZNum, nadd (nmul a (nsub n1 n0)) (nmul a n0) = a).
Proof. split; [reflexivity|]. split; intros a; cbn; lia. Qed.
Example C40_ex_calls : calls_for 100 2 = 10100.
Proof. vm_compute. reflexivity. Qed.
