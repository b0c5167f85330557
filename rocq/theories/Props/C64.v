(** C64: AGE-MOEA. *)
From Coq Require Import List Arith Bool QArith Qabs Lia Lqa Permutation.
From Verif.Base Require Import Num Vec Instances QInst.
From Verif.Model Require Import NSGA2 AGEMOEA.
From Verif.Spec Require Import ParetoSpec NSGA2Spec AGEMOEASpec.
From Verif.Proof Require Import NSGA2Ex AGEMOEAProof AGEMOEARun AGEMOEAScores AGEMOEAEx.
Import ListNotations.
#[local] Open Scope nat_scope.

(** What a call that returns reports (see [age_reported]): n individuals taken from the parents and
    children of the last generation, all within the bounds; slice i of ParetoFront() holds the
    objectives of slice i of ParetoSet(); the returned value is a lower bound of their sums. *)
Theorem C64_report :
  forall (N : Num), OrdLaws N ->
  forall n maxGen (cp di eps eta : N) (lb ub : list N) fs stop pw lg solve inf t14 t10 t6 init rnd sortp fuel x r,
  age_good n maxGen lb ub fs init rnd sortp x ->
  (forall l v, solve l = Some v -> length v = length fs) -> 2 * n + 1 < fuel ->
  AGEMOEA.optimize n maxGen cp di eps eta lb ub fs stop pw lg solve inf t14 t10 t6 init rnd sortp fuel x = NRet r ->
  age_reported n maxGen lb ub fs stop x r.
Proof. exact @optimize_report. Qed.
Print Assumptions C64_report.

(** When the distances are numbers and not negative, every loop ends: the call returns, or reads
    past the end of the population (below). *)
Theorem C64_ends :
  forall (N : Num), OrdLaws N ->
  forall n maxGen (cp di eps eta : N) (lb ub : list N) fs stop pw lg solve inf t14 t10 t6 init rnd sortp fuel x,
  age_good n maxGen lb ub fs init rnd sortp x ->
  (forall l v, solve l = Some v -> length v = length fs) -> 2 * n + 1 < fuel ->
  score_laws inf -> (forall o fr p i j, nlt (pairwise pw o fr p i j) n0 = false) ->
  (exists r, AGEMOEA.optimize n maxGen cp di eps eta lb ub fs stop pw lg solve inf t14 t10 t6 init rnd sortp fuel x = NRet r) \/
  AGEMOEA.optimize n maxGen cp di eps eta lb ub fs stop pw lg solve inf t14 t10 t6 init rnd sortp fuel x = NBad.
Proof. exact @optimize_ends. Qed.
Print Assumptions C64_ends.

(** The selection is elitist: if no two different individuals of the last generation are within
    epsilon of each other, no individual that was dropped dominates one that was kept. *)
Theorem C64_elite :
  forall (N : Num), OrdLaws N -> (forall a : N, nisnan a = false) ->
  forall n maxGen (cp di eps eta : N) (lb ub : list N) fs stop pw lg solve inf t14 t10 t6 init rnd sortp fuel x r,
  age_good n maxGen lb ub fs init rnd sortp x ->
  (forall l v, solve l = Some v -> length v = length fs) -> 2 * n + 1 < fuel ->
  is_sort sortp -> (forall a : N, nle (nabs (nsub a a)) eps = true) ->
  AGEMOEA.optimize n maxGen cp di eps eta lb ub fs stop pw lg solve inf t14 t10 t6 init rnd sortp fuel x = NRet r ->
  (forall p q, In p (q_merged r) -> In q (q_merged r) -> approx_equal eps p q = true -> p = q) ->
  exists dropped, Permutation (q_set r ++ dropped) (q_merged r) /\
    forall p q, In p (q_set r) -> In q dropped -> ~ Dominates (objv fs q) (objv fs p).
Proof. exact @optimize_elite. Qed.
Print Assumptions C64_elite.

(** Within a front the survival scores decide: of two individuals of the same front, one kept and
    one dropped, the one that was dropped does not have the larger score. *)
Theorem C64_scores :
  forall (N : Num), OrdLaws N -> (forall a : N, nisnan a = false) ->
  forall n (cp di eps eta : N) fs pw lg solve inf t14 t10 t6 rnd sortp fuel gen lo hi x s s',
  is_sort sortp -> (forall a : N, nle (nabs (nsub a a)) eps = true) -> n <= length (g_pop s) -> 2 * length (g_pop s) + 1 < fuel ->
  AGEMOEA.generation n cp di eps eta fs pw lg solve inf t14 t10 t6 rnd sortp fuel gen lo hi x s = NRet s' ->
  length (g_merged s') < fuel -> NoDup (g_merged s') ->
  (forall p q, In p (g_merged s') -> In q (g_merged s') -> approx_equal eps p q = true -> p = q) ->
  exists ideal sc dropped,
    assign fs pw lg solve inf t6 fuel ideal (g_fronts s') (map (objv fs) (g_merged s')) = Some sc /\
    Permutation (g_pop s' ++ dropped) (g_merged s') /\
    forall i j k, in_front (g_fronts s') k i -> in_front (g_fronts s') k j ->
      In (nth i (g_merged s') []) (g_pop s') -> In (nth j (g_merged s') []) dropped ->
      nlt (nth i (s_score sc) n0) (nth j (s_score sc) n0) = false.
Proof. exact @generation_scores. Qed.
Print Assumptions C64_scores.

(** The extreme points of a front with more members than objectives: as many as objectives, all
    different, and the one for axis i is nearest to that axis among those not chosen for an earlier
    axis. *)
Theorem C64_extremes :
  forall (N : Num), OrdLaws N ->
  forall (fs : list (list N -> N)) (inf t6 : N) objs front,
  (forall i j, i < length fs -> j < length front -> nlt (line_distance (axis fs t6 i) (row objs front j)) inf = true) ->
  length fs < length front ->
  let l := find_extreme_points fs inf t6 objs front in
  length l = length fs /\ NoDup l /\ (forall e, In e l -> e < length front) /\
  (forall i, i < length fs -> forall j, j < length front -> ~ In j (firstn i l) ->
     nlt (line_distance (axis fs t6 i) (row objs front j)) (line_distance (axis fs t6 i) (row objs front (nth i l 0))) = false).
Proof. exact @extremes_ok. Qed.
Print Assumptions C64_extremes.

(** One, two and three individuals are refused before anything else happens. *)
Theorem C64_small :
  forall (N : Num) n maxGen (cp di eps eta : N) lb ub fs stop pw lg solve inf t14 t10 t6 init rnd sortp fuel x,
  1 <= n <= 3 ->
  AGEMOEA.optimize n maxGen cp di eps eta lb ub fs stop pw lg solve inf t14 t10 t6 init rnd sortp fuel x = NThrow.
Proof. exact @age_small_throws. Qed.
Print Assumptions C64_small.

(** A valid run reads past the end: `iterate = population[fronts[0][0]]` takes an index into parents
    and children after the population was cut to n.  If every parent is dominated by a child, the
    index is at least n. *)
Theorem C64_iterate_refuted :
  exists init rnd, age_good (N := QNum) 4 1 [-10]%Q [10]%Q [qf1; qf2] init rnd isort [(1#2)%Q] /\ qrun 1 init rnd = NBad.
Proof. exact reads_past_end. Qed.
Print Assumptions C64_iterate_refuted.

(** A valid run whose ParetoFront() has a dominated slice, whose iterate is dominated by another
    individual of ParetoSet(), whose value is below every single objective that was ever computed,
    and whose GenerationalStepTaken() callback does not see the objectives of the population. *)
Theorem C64_front_refuted :
  exists init rnd r, age_good (N := QNum) 4 1 [-10]%Q [10]%Q [qf1; qf2] init rnd isort [(1#2)%Q] /\ qrun 1 init rnd = NRet r /\
    (exists p q, In p (q_front r) /\ In q (q_front r) /\ Dominates p q) /\
    (exists p, In p (q_set r) /\ Dominates (objv [qf1; qf2] p) (objv [qf1; qf2] (q_x r))) /\
    (forall f x, In f [qf1; qf2] -> length x = 1 -> (q_val r < f x)%Q) /\
    (forall objs fronts y, In (NGen y objs fronts) (q_tr r) -> objs <> map (objv [qf1; qf2]) (q_merged r)).
Proof. exact age_front_false. Qed.
Print Assumptions C64_front_refuted.

(** maxGenerations = 0 is not "no limit", nor does it return: there are no fronts to read. *)
Theorem C64_no_generation_refuted :
  forall (N : Num) n (cp di eps eta : N) lb ub fs stop pw lg solve inf t14 t10 t6 init rnd sortp fuel x,
  n = 0 \/ 4 <= n ->
  AGEMOEA.optimize n 0 cp di eps eta lb ub fs stop pw lg solve inf t14 t10 t6 init rnd sortp fuel x = NBad.
Proof. exact @age_no_generation. Qed.
Print Assumptions C64_no_generation_refuted.

(** populationSize = 0 passes the check of the constructor arguments and reads missing elements. *)
Theorem C64_no_population_refuted :
  forall (N : Num) maxGen (cp di eps eta : N) lb ub fs stop pw lg solve inf t14 t10 t6 init rnd sortp fuel x,
  AGEMOEA.optimize 0 maxGen cp di eps eta lb ub fs stop pw lg solve inf t14 t10 t6 init rnd sortp (S fuel) x = NBad.
Proof. exact @age_no_population. Qed.
Print Assumptions C64_no_population_refuted.

(** A run that meets the hypotheses of C64_report, C64_ends and C64_elite and returns: members
    4 1 5 6, children 7 8 9 9.5. *)
Example C64_ex :
  age_good (N := QNum) 4 1 [-10]%Q [10]%Q [qf1; qf2] initB rndB isort [(1#2)%Q] /\
  score_laws (N := QNum) 1000000%Q /\
  (forall o fr p i j, nlt (pairwise (N := QNum) qpw o fr p i j) n0 = false) /\
  @is_sort (list QNum) isort /\
  (forall a : QNum, nle (nabs (nsub a a)) (1#1000)%Q = true) /\
  exists r, qrun 1 initB rndB = NRet r /\ q_set r = [[1]; [4]; [5]; [6]]%Q /\
    (forall p q, In p (q_merged r) -> In q (q_merged r) -> approx_equal (N := QNum) (1#1000)%Q p q = true -> p = q).
Proof. exact age_ex. Qed.

(** the extreme points of three members on a line, for two objectives: the ends *)
Example C64_ex_extremes :
  find_extreme_points (N := QNum) [qf1; qf2] 1000000%Q 0%Q [[2; 2]; [4; 0]; [0; 4]]%Q [0; 1; 2] = [1; 2] /\
  (forall i j, i < 2 -> j < 3 ->
     nlt (line_distance (N := QNum) (axis (N := QNum) [qf1; qf2] 0%Q i) (row (N := QNum) [[2; 2]; [4; 0]; [0; 4]]%Q [0; 1; 2] j)) (1000000%Q : QNum) = true).
Proof. split; [vm_compute; reflexivity|]. intros [|[|i]] [|[|[|j]]] H1 H2; try lia; vm_compute; reflexivity. Qed.
