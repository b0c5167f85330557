(** C90: parallel SGD converges to the minimiser if the step sizes tend to zero slowly enough. *)
From Coq Require Import List Arith Bool Reals Lra Lia Permutation.
From Verif.Base Require Import Num Vec Instances Size.
From Verif.Model Require Import Common SA ParallelSgd.
From Verif.Spec Require Import Gradient ConvergeSpec FWSpec VrRateSpec SgdRateSpec ParSpec ParSerialSpec BackoffSpec DecaySpec.
From Verif.Proof Require Import VrRateEx ParFloorEx BackoffEx Decay DecayEx.
Import ListNotations.
Local Open Scope R_scope.

(** Functions as in C88, any decay policy whose step sizes h satisfy 8 h n L^2 <= mu: epoch j ends
    within the bound b_j of y, where b_0 is the distance of the start and
    b_{j+1} = (1 - h n mu / 4) b_j + 2 h^2 n L s with the step size h of epoch j + 1, whatever the
    schedule, the values the threads read, the order, the callbacks and the limits. *)
Theorem C90_every_epoch :
  forall mx p n L mu (gr : nat -> list R -> list R) (F : list R -> R) (y : list R) (step : nat -> R),
  each_smooth p n L gr -> smooth_on (space p) L F (avg_grad p n gr) -> strongly_convex_on (space p) mu F ->
  0 < mu <= L -> (0 < n)%nat -> length y = p -> (forall z, length z = p -> F y <= F z) ->
  (forall i, (1 <= i)%nat -> 0 < step i /\ 8 * (step i * INR n) * (L * L) <= mu) ->
  forall (x0 : list R) maxIterations (tolerance : R) f shuffle T share perm cbE grad cbG cbS sched,
  (forall hh l, Permutation (perm hh l) l) -> (n <= T * share)%nat ->
  (forall x v h0 hh idx, (idx < n)%nat -> exists z, seen (N := RNum mx) x hh z /\
     grad (OEval (N := RNum mx) x v :: h0) hh idx = nonzeros 0 (gr idx z)) ->
  forall fuel v (xf : list R) full, length x0 = p ->
  psgd (N := RNum mx) maxIterations tolerance shuffle T share f step perm cbE grad cbG cbS sched n fuel x0 = Ret (v, xf, full) ->
  let b := decay_bound n L mu step (disagreement n gr y) (dist x0 y) in
  (forall j o a es z, In (OEpoch (N := RNum mx) j o a es z) full -> dist z y <= b j) /\
  dist xf y <= b (length (epochs (N := RNum mx) full)).
Proof. exact psgd_decay. Qed.
Print Assumptions C90_every_epoch.

(** If moreover the step sizes tend to zero and their sum is unbounded, the epochs converge to the
    minimiser: for every eps there is a number of epochs, the same for all schedules, thread counts
    and orders, from which on every epoch ends within eps of it. *)
Theorem C90_converges :
  forall mx p n L mu (gr : nat -> list R -> list R) (F : list R -> R) (y : list R) (step : nat -> R),
  each_smooth p n L gr -> smooth_on (space p) L F (avg_grad p n gr) -> strongly_convex_on (space p) mu F ->
  0 < mu <= L -> (0 < n)%nat -> length y = p -> (forall z, length z = p -> F y <= F z) ->
  (forall i, (1 <= i)%nat -> 0 < step i /\ 8 * (step i * INR n) * (L * L) <= mu) -> vanishing step -> unbounded_sum step ->
  forall (x0 : list R) eps, length x0 = p -> 0 < eps ->
  exists E, forall maxIterations (tolerance : R) f shuffle T share perm cbE grad cbG cbS sched,
  (forall hh l, Permutation (perm hh l) l) -> (n <= T * share)%nat ->
  (forall x v h0 hh idx, (idx < n)%nat -> exists z, seen (N := RNum mx) x hh z /\
     grad (OEval (N := RNum mx) x v :: h0) hh idx = nonzeros 0 (gr idx z)) ->
  forall fuel v (xf : list R) full,
  psgd (N := RNum mx) maxIterations tolerance shuffle T share f step perm cbE grad cbG cbS sched n fuel x0 = Ret (v, xf, full) ->
  forall j o a es z, In (OEpoch (N := RNum mx) j o a es z) full -> (E <= j)%nat -> dist z y <= eps.
Proof. exact psgd_converges. Qed.
Print Assumptions C90_converges.

(** The step sizes a / i of epochs i = 1, 2, ... are of this kind. *)
Theorem C90_harmonic_steps : forall a, 0 < a -> vanishing (fun i => a / INR i) /\ unbounded_sum (fun i => a / INR i).
Proof. intros a A. exact (conj (harmonic_vanishing a A) (harmonic_unbounded a A)). Qed.
Print Assumptions C90_harmonic_steps.

(** REFUTED: it is enough that the step sizes tend to zero.  With step size 2^-i / 8 in epoch i, small
    enough for x^2/2 (n = L = mu = 1), the iterate never gets below 7/8 of its start. *)
Theorem C90_vanishing_steps_suffice_refuted : forall mx f M fuel x, (M < fuel)%nat ->
  (forall i, 0 < halving i /\ 8 * (halving i * INR 1) * (1 * 1) <= 1) /\ vanishing halving /\
  exists v full c, solo_run mx halving f M fuel x = Ret (v, [c * x], full) /\ 7 / 8 <= c <= 1.
Proof.
  intros mx f M fuel x LF. split; [intros i; pose proof (halving_pos i); cbn; lra|]. split; [exact halving_vanishing|exact (halving_stuck mx f M fuel x LF)].
Qed.
Print Assumptions C90_vanishing_steps_suffice_refuted.

(** The hypotheses can be met: x^2/2 and 3(x-2)^2/2 with step size 1/(72 i) in epoch i, two threads
    that both read the iterate at the start of the epoch. *)
Example C90_case : forall mx,
  each_smooth 1 2 3 two_grad /\ smooth_on (space 1) 3 two_avg (avg_grad 1 2 two_grad) /\ strongly_convex_on (space 1) 2 two_avg /\
  (forall z, length z = 1%nat -> two_avg [3 / 2] <= two_avg z) /\
  (forall i, (1 <= i)%nat -> 0 < / 72 / INR i /\ 8 * (/ 72 / INR i * INR 2) * (3 * 3) <= 2) /\
  vanishing (fun i => / 72 / INR i) /\ unbounded_sum (fun i => / 72 / INR i) /\
  exists v xf full,
  psgd (N := RNum mx) 2 0 false 2 1 (fun _ => 0) (fun i => / 72 / INR i) (fun _ l => l) (fun _ => false) (two_old mx)
    (fun _ _ => false) (fun _ _ => false) (fun _ => two_turns) 2 2 [10] = Ret (v, xf, full).
Proof.
  intros mx. split; [exact two_smooth|]. split; [exact two_avg_smooth|]. split; [exact two_avg_strong|]. split; [exact two_avg_min|]. split.
  - intros i I. apply le_INR in I. cbn [INR] in I. assert (J : 0 < / INR i <= 1) by (split; [apply Rinv_0_lt_compat; lra|rewrite <- Rinv_1; apply Rinv_le_contravar; lra]).
    unfold Rdiv. split; [apply Rmult_lt_0_compat; lra|cbn; lra].
  - split; [apply harmonic_vanishing; lra|]. split; [apply harmonic_unbounded; lra|]. exact (two_old_run mx (/ 72 / INR 1)).
Qed.
