(** C89: how far parallel SGD gets with a decay policy, and with ExponentialBackoff in particular. *)
From Coq Require Import List Arith Bool Reals Lra Lia Permutation.
From Verif.Base Require Import Num Vec Instances Size.
From Verif.Model Require Import Common SA ParallelSgd ReuseSwarm Problems ProblemsN.
From Verif.Spec Require Import ConvergeSpec ParSpec ParSerialSpec BackoffSpec.
From Verif.Proof Require Import ParSparse ParSparseEx Backoff BackoffRun BackoffEx.
Import ListNotations.
Local Open Scope R_scope.

(** Any positive step sizes whose sums stay below S: if no gradient element exceeds G within n G S of
    the start, element by element, then a run on n functions stays there, whatever the schedule, the
    values the threads read, the visitation order, the callbacks, tolerance and iteration limit.
    Epoch j ends within n G times the sum of the first j step sizes of the start, and within n G times
    the sum of the remaining ones of the final iterate. *)
Theorem C89_no_further_than_the_steps :
  forall mx n (G S : R) (gr : nat -> list R -> list R) (step : nat -> R) (x0 : list R),
  0 <= G -> (forall i, (1 <= i)%nat -> 0 < step i) -> (forall k, step_total step k <= S) ->
  (forall i z q, (i < n)%nat -> in_box x0 (INR n * G * S) z -> Rabs (nth q (gr i z) 0) <= G) ->
  forall maxIterations (tolerance : R) f shuffle T share perm cbE grad cbG cbS sched,
  (forall hh l, Permutation (perm hh l) l) ->
  (forall x v h0 hh idx, (idx < n)%nat -> exists z, seen (N := RNum mx) x hh z /\
     grad (OEval (N := RNum mx) x v :: h0) hh idx = nonzeros 0 (gr idx z)) ->
  forall fuel v (xf : list R) full,
  psgd (N := RNum mx) maxIterations tolerance shuffle T share f step perm cbE grad cbG cbS sched n fuel x0 = Ret (v, xf, full) ->
  let k := length (epochs (N := RNum mx) full) in
  in_box x0 (INR n * G * step_total step k) xf /\
  forall j o a es z, In (OEpoch (N := RNum mx) j o a es z) full -> (j <= k)%nat /\
    in_box x0 (INR n * G * step_total step j) z /\ in_box z (INR n * G * (step_total step k - step_total step j)) xf.
Proof. intros mx n G S gr step x0 H1 H2 H3. exact (psgd_box mx n G S gr step H1 H2 H3 x0). Qed.
Print Assumptions C89_no_further_than_the_steps.

(** The step sizes of ExponentialBackoff have such a bound: with reduction factor b in (0, 1), first
    reduction at epoch [first] >= 1 and initial step size s, they are positive and those of any number
    of epochs add up to less than s (first - 1 + q b / (1 - b)), q the integer part of first / b. *)
Theorem C89_backoff_steps_are_summable :
  forall mx first q (b s : R), 0 < b < 1 -> 0 < s -> (1 <= first)%nat -> whole_part first b q ->
  (forall i, (1 <= i)%nat -> 0 < backoff_step_size (N := RNum mx) q b (first, s) i) /\
  forall k, step_total (backoff_step_size (N := RNum mx) q b (first, s)) k < backoff_total first q s b.
Proof.
  intros mx first q b s HB HS HF W. pose proof (whole_pos first b q HB HF W) as HQ.
  exact (conj (backoff_pos mx q first b s HB HS HQ HF) (backoff_sum mx q first b s HB HS HQ HF)).
Qed.
Print Assumptions C89_backoff_steps_are_summable.

(** So a run with ExponentialBackoff stays in a fixed box around its start, however many epochs it
    makes, and a minimiser outside the box is never approached by more than that. *)
Theorem C89_backoff_stays_near_the_start :
  forall mx n first q (b s G : R) (gr : nat -> list R -> list R) (x0 : list R),
  0 < b < 1 -> 0 < s -> (1 <= first)%nat -> whole_part first b q -> 0 <= G ->
  let reach := INR n * G * backoff_total first q s b in
  (forall i z e, (i < n)%nat -> in_box x0 reach z -> Rabs (nth e (gr i z) 0) <= G) ->
  forall maxIterations (tolerance : R) f shuffle T share perm cbE grad cbG cbS sched,
  (forall hh l, Permutation (perm hh l) l) ->
  (forall x v h0 hh idx, (idx < n)%nat -> exists z, seen (N := RNum mx) x hh z /\
     grad (OEval (N := RNum mx) x v :: h0) hh idx = nonzeros 0 (gr idx z)) ->
  forall fuel v (xf : list R) full,
  psgd (N := RNum mx) maxIterations tolerance shuffle T share f (backoff_step_size (N := RNum mx) q b (first, s)) perm cbE grad cbG cbS sched n fuel x0
    = Ret (v, xf, full) ->
  in_box x0 reach xf /\ forall (y : list R) e, Rabs (nth e y 0 - nth e x0 0) - reach <= Rabs (nth e y 0 - nth e xf 0).
Proof. exact backoff_box. Qed.
Print Assumptions C89_backoff_stays_near_the_start.

(** On SparseTestFunction, the problem the library ships for this optimizer, with minimiser
    - bi / 2: if the sum of all step sizes is at most 1/2, a run never covers more than the fraction
    2 s (first - 1 + q b / (1 - b)) of the distance in any element, whatever the threads do. *)
Theorem C89_sparse_test_function :
  forall mx first q (b s : R) maxIterations (tolerance : R) f shuffle T share perm cbE grad cbG cbS sched,
  0 < b < 1 -> 0 < s -> (1 <= first)%nat -> whole_part first b q -> 2 * backoff_total first q s b <= 1 ->
  (forall h l, Permutation (perm h l) l) -> (4 <= T * share)%nat ->
  (forall h, cbE h = false) -> (forall h0 h, cbG h0 h = false) -> (forall h0 h, cbS h0 h = false) ->
  (forall x v h0 h idx, (idx < 4)%nat -> exists y, seen (N := RNum mx) x h y /\
     grad (OEval (N := RNum mx) x v :: h0) h idx = nonzeros 0 (sparse_gradient y idx 1)) ->
  forall fuel (x0 : list R) v (xf : list R) full, length x0 = 4%nat ->
  psgd (N := RNum mx) maxIterations tolerance shuffle T share f (backoff_step_size (N := RNum mx) q b (first, s)) perm cbE grad cbG cbS sched 4 fuel x0
    = Ret (v, xf, full) ->
  forall k, (k < 4)%nat ->
  (1 - 2 * backoff_total first q s b) * Rabs (co x0 k - - (co sparse_bi k / 2)) <= Rabs (co xf k - - (co sparse_bi k / 2)).
Proof. exact sparse_backoff. Qed.
Print Assumptions C89_sparse_test_function.

(** REFUTED: "This stepsize update scheme gives robust 1/k convergence rates" (the documentation of
    ExponentialBackoff).  The cutoff grows by the same amount every time, so the step sizes shrink
    too fast.  On x^2/2 with one thread and ExponentialBackoff(10, 0.01, 0.5) the iterate stays above
    71/100 of its start after any number of epochs, while with the constant step size 0.01 it tends
    to the minimiser 0. *)
Theorem C89_backoff_converges_refuted : forall mx f M fuel x, (M < fuel)%nat ->
  whole_part 10 (/ 2) 20 /\
  (exists v full c, solo_run mx (backoff_step_size (N := RNum mx) 20 (/ 2) (10%nat, / 100)) f M fuel x = Ret (v, [c * x], full) /\ 71 / 100 <= c <= 1) /\
  (exists v full, solo_run mx (fun _ => / 100) f M fuel x = Ret (v, [(99 / 100) ^ M * x], full)).
Proof. intros mx f M fuel x H. split; [unfold whole_part; cbn; lra|exact (backoff_stuck mx f M fuel x H)]. Qed.
Print Assumptions C89_backoff_converges_refuted.

(** The hypotheses can be met: one function with gradient x, start 1, ExponentialBackoff(10, 0.01,
    0.5): the reach is 29/71, where no gradient exceeds 100/71; and a run on SparseTestFunction. *)
Example C89_case : whole_part 10 (/ 2) 20 /\ INR 1 * (100 / 71) * backoff_total 10 20 (/ 100) (/ 2) = 29 / 71 /\
  forall i z e, (i < 1)%nat -> in_box [1] (29 / 71) z -> Rabs (nth e ((fun _ z => z) i z) 0) <= 100 / 71.
Proof.
  split; [unfold whole_part; cbn; lra|]. split; [unfold backoff_total; cbn; field|]. intros i z e _ [L A]. specialize (A e). cbv beta.
  destruct e as [|e]; cbn [nth] in A.
  - pose proof (Rabs_triang (nth 0 z 0 - 1) 1) as B. replace (nth 0 z 0 - 1 + 1) with (nth 0 z 0) in B by ring. rewrite (Rabs_pos_eq 1) in B by lra. lra.
  - rewrite nth_overflow by (rewrite L; cbn; lia). rewrite Rabs_R0. lra.
Qed.
Example C89_sparse_case : forall mx,
  2 * backoff_total 10 20 (/ 100) (/ 2) <= 1 /\ exists v xf full,
  psgd (N := RNum mx) 2 0 false 2 2 (fun _ => 0) (backoff_step_size (N := RNum mx) 20 (/ 2) (10%nat, / 100)) (fun _ l => l) (fun _ => false) (old_reads mx)
    (fun _ _ => false) (fun _ _ => false) (fun _ => turns) 4 2 [3; 2; 5 / 2; 5] = Ret (v, xf, full).
Proof. intros mx. split; [unfold backoff_total; cbn; lra|]. exact (old_reads_run mx (/ 100)). Qed.
