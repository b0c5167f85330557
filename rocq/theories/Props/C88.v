(** C88: parallel SGD converges whatever the schedule and however old the values the threads read. *)
From Coq Require Import List Arith Bool ZArith Reals Lra Lia Permutation.
From Verif.Base Require Import Num Vec Instances Size.
From Verif.Model Require Import Common SA ParallelSgd.
From Verif.Spec Require Import Gradient ConvergeSpec FWSpec VrRateSpec SgdRateSpec ParSpec ParSerialSpec.
From Verif.Proof Require Import VrRateEx SgdRate ParFloorRun ParFloorEx.
Import ListNotations.
Local Open Scope R_scope.

(** For every sum of n functions whose gradients are Lipschitz with constant L and whose average F is
    strongly convex with constant mu and least at y, every number of threads and share size that cover
    all functions, every visitation order, schedule, tolerance and iteration limit, whatever the
    callbacks do, and whatever values of the epoch the threads read, element by element: with a
    constant step size h such that 8 h n L^2 <= mu, epoch j ends within
    (1 - h n mu / 4)^j |x0 - y| + 8 h L s / mu of y, s adding up the lengths of the gradients at y,
    and so does the run.  It is the bound proved for SGD on one thread (C86). *)
Theorem C88_near_the_minimiser :
  forall mx p n L mu h (gr : nat -> list R -> list R) (F : list R -> R) (y : list R),
  each_smooth p n L gr -> smooth_on (space p) L F (avg_grad p n gr) -> strongly_convex_on (space p) mu F ->
  0 < mu <= L -> 0 < h -> (0 < n)%nat -> length y = p -> (forall z, length z = p -> F y <= F z) ->
  8 * (h * INR n) * (L * L) <= mu ->
  forall (x0 : list R) maxIterations (tolerance : R) f shuffle T share perm cbE grad cbG cbS sched,
  (forall hh l, Permutation (perm hh l) l) -> (n <= T * share)%nat ->
  (forall x v h0 hh idx, (idx < n)%nat -> exists z, seen (N := RNum mx) x hh z /\
     grad (OEval (N := RNum mx) x v :: h0) hh idx = nonzeros 0 (gr idx z)) ->
  forall fuel v (xf : list R) full, length x0 = p ->
  psgd (N := RNum mx) maxIterations tolerance shuffle T share f (fun _ => h) perm cbE grad cbG cbS sched n fuel x0 = Ret (v, xf, full) ->
  let bound := floor_bound n L mu h (disagreement n gr y) (dist x0 y) in
  (forall j o a es z, In (OEpoch (N := RNum mx) j o a es z) full -> dist z y <= bound j) /\
  dist xf y <= bound (length (epochs (N := RNum mx) full)).
Proof. exact psgd_near. Qed.
Print Assumptions C88_near_the_minimiser.

(** If every function is stationary at y the floor is zero: every epoch shrinks the distance by the
    same factor, whatever the schedule. *)
Theorem C88_interpolation :
  forall mx p n L mu h (gr : nat -> list R -> list R) (F : list R -> R) (y : list R),
  each_smooth p n L gr -> smooth_on (space p) L F (avg_grad p n gr) -> strongly_convex_on (space p) mu F ->
  0 < mu <= L -> 0 < h -> (0 < n)%nat -> length y = p -> (forall z, length z = p -> F y <= F z) ->
  8 * (h * INR n) * (L * L) <= mu -> (forall i, (i < n)%nat -> sqn (gr i y) = 0) ->
  forall (x0 : list R) maxIterations (tolerance : R) f shuffle T share perm cbE grad cbG cbS sched,
  (forall hh l, Permutation (perm hh l) l) -> (n <= T * share)%nat ->
  (forall x v h0 hh idx, (idx < n)%nat -> exists z, seen (N := RNum mx) x hh z /\
     grad (OEval (N := RNum mx) x v :: h0) hh idx = nonzeros 0 (gr idx z)) ->
  forall fuel v (xf : list R) full, length x0 = p ->
  psgd (N := RNum mx) maxIterations tolerance shuffle T share f (fun _ => h) perm cbE grad cbG cbS sched n fuel x0 = Ret (v, xf, full) ->
  (forall j o a es z, In (OEpoch (N := RNum mx) j o a es z) full -> dist z y <= (1 - h * INR n * mu / 4) ^ j * dist x0 y) /\
  dist xf y <= (1 - h * INR n * mu / 4) ^ length (epochs (N := RNum mx) full) * dist x0 y.
Proof. exact psgd_interpolation. Qed.
Print Assumptions C88_interpolation.

(** Any accuracy: for every eps there is a step size h0 such that with any step size up to h0 all
    epochs from some number on end within eps of the minimiser, the number being the same for all
    schedules, thread counts and orders. *)
Theorem C88_any_accuracy :
  forall mx p n L mu (gr : nat -> list R -> list R) (F : list R -> R) (y : list R),
  each_smooth p n L gr -> smooth_on (space p) L F (avg_grad p n gr) -> strongly_convex_on (space p) mu F ->
  0 < mu <= L -> (0 < n)%nat -> length y = p -> (forall z, length z = p -> F y <= F z) ->
  forall (x0 : list R) eps, length x0 = p -> 0 < eps ->
  exists h0, 0 < h0 /\ forall h, 0 < h <= h0 -> exists E,
  forall maxIterations (tolerance : R) f shuffle T share perm cbE grad cbG cbS sched,
  (forall hh l, Permutation (perm hh l) l) -> (n <= T * share)%nat ->
  (forall x v h0 hh idx, (idx < n)%nat -> exists z, seen (N := RNum mx) x hh z /\
     grad (OEval (N := RNum mx) x v :: h0) hh idx = nonzeros 0 (gr idx z)) ->
  forall fuel v (xf : list R) full,
  psgd (N := RNum mx) maxIterations tolerance shuffle T share f (fun _ => h) perm cbE grad cbG cbS sched n fuel x0 = Ret (v, xf, full) ->
  forall j o a es z, In (OEpoch (N := RNum mx) j o a es z) full -> (E <= j)%nat -> dist z y <= eps.
Proof. exact psgd_accuracy. Qed.
Print Assumptions C88_any_accuracy.

(** REFUTED: a step size that is right for one thread is right for several.  On four functions
    x^2/2 of one element with step size 1, one thread is at the minimiser after the first epoch and
    stays there, while four threads taking turns multiply the iterate by -3 in every epoch. *)
Theorem C88_same_step_size_refuted : forall f M fuel (x : Z), (M < fuel)%nat ->
  (exists v full, sq_run 4 1 in_turns f M fuel x = Ret (v, [((-3) ^ Z.of_nat M * x)%Z], full)) /\
  ((0 < M)%nat -> exists v full, sq_run 1 4 alone f M fuel x = Ret (v, [0%Z], full)).
Proof. exact stale_diverges. Qed.
Print Assumptions C88_same_step_size_refuted.

(** The hypotheses can be met: x^2/2 and 3(x-2)^2/2 with step size 1/72, two threads that both read
    the iterate at the start of the epoch; the run exists and is bounded. *)
Example C88_case : forall mx,
  each_smooth 1 2 3 two_grad /\ smooth_on (space 1) 3 two_avg (avg_grad 1 2 two_grad) /\ strongly_convex_on (space 1) 2 two_avg /\
  (forall z, length z = 1%nat -> two_avg [3 / 2] <= two_avg z) /\ 8 * (/ 72 * INR 2) * (3 * 3) <= 2 /\
  exists v xf full,
  psgd (N := RNum mx) 2 0 false 2 1 (fun _ => 0) (fun _ => / 72) (fun _ l => l) (fun _ => false) (two_old mx)
    (fun _ _ => false) (fun _ _ => false) (fun _ => two_turns) 2 2 [10] = Ret (v, xf, full) /\
  dist xf [3 / 2] <= floor_bound 2 3 2 (/ 72) (disagreement 2 two_grad [3 / 2]) (dist [10] [3 / 2]) (length (epochs (N := RNum mx) full)).
Proof.
  intros mx. split; [exact two_smooth|]. split; [exact two_avg_smooth|]. split; [exact two_avg_strong|]. split; [exact two_avg_min|].
  assert (SM : 8 * (/ 72 * INR 2) * (3 * 3) <= 2) by (cbn; lra). split; [exact SM|].
  destruct (two_old_run mx (/ 72)) as (v & xf & full & E). exists v, xf, full. split; [exact E|].
  refine (proj2 (C88_near_the_minimiser mx 1 2 3 2 (/ 72) two_grad two_avg [3 / 2] two_smooth two_avg_smooth two_avg_strong
    _ _ _ eq_refl two_avg_min SM [10] 2 0 (fun _ => 0) false 2 1 (fun _ l => l) (fun _ => false) (two_old mx) (fun _ _ => false) (fun _ _ => false)
    (fun _ => two_turns) (fun _ l => Permutation_refl l) _ (two_old_seen mx) 2 v xf full eq_refl E)); try lra; lia.
Qed.
