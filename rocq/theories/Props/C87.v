(** C87: parallel SGD on functions that share no element of the iterate. *)
From Coq Require Import List Arith Bool ZArith Reals Lia Permutation.
From Verif.Base Require Import Num Instances.
From Verif.Model Require Import Common SA ParallelSgd Problems ProblemsN.
From Verif.Spec Require Import ParSpec ParSerialSpec.
From Verif.Proof Require Import ParProof ParRun ParSerial ParSerialEx ParSparse ParSparseEx.
Import ListNotations.

(** One epoch with enough threads for all functions, over any number type (so with rounding): every
    gradient computed is the gradient at the start of the epoch, whatever the other threads have
    written and however old the values read, and the iterate at the end is that of one thread taking
    the functions in their natural order. *)
Theorem C87_epoch :
  forall (N : Num) n supp (G : nat -> list N -> list (nat * N)), separate n supp G ->
  forall (step : N) share order grad cbG cbS T sched x0 term s ls,
  Permutation order (seq 0 n) -> n <= T * share ->
  (forall h idx, idx < n -> exists y, seen x0 h y /\ grad h idx = G idx y) ->
  pexec share order step grad cbG cbS sched {| s_it := x0; s_term := term; s_log := [] |} (start share T) = (s, ls) ->
  finished share order ls = true ->
  (forall t idx g ask, In (PGrad t idx g ask) (s_log s) -> g = G idx x0) /\ s_it s = serial_pass step G n x0.
Proof. exact @epoch_serial. Qed.
Print Assumptions C87_epoch.

(** Each element an epoch changes is changed once, by the step size times the one gradient element
    that concerns it; the others keep their value. *)
Theorem C87_elements :
  forall (N : Num) n supp (G : nat -> list N -> list (nat * N)), separate n supp G ->
  forall (step : N) share order grad cbG cbS T sched x0 term s ls,
  Permutation order (seq 0 n) -> n <= T * share ->
  (forall h idx, idx < n -> exists y, seen x0 h y /\ grad h idx = G idx y) ->
  pexec share order step grad cbG cbS sched {| s_it := x0; s_term := term; s_log := [] |} (start share T) = (s, ls) ->
  finished share order ls = true ->
  (forall i p g, i < n -> In (p, g) (G i x0) ->
     nth_error (s_it s) p = option_map (fun b => nsub b (nmul step g)) (nth_error x0 p)) /\
  (forall p, (forall i g, i < n -> ~ In (p, g) (G i x0)) -> nth_error (s_it s) p = nth_error x0 p).
Proof.
  intros N n supp G SEP step share order grad cbG cbS T sched x0 term s ls PO LT SEEN E F.
  destruct (epoch_serial n supp G SEP step share order grad cbG cbS T sched x0 term s ls PO LT SEEN E F) as [_ ->]. split.
  - intros i p g. exact (pass_element n supp G SEP step x0 i p g).
  - intros p. exact (pass_other n supp G SEP step x0 p).
Qed.
Print Assumptions C87_elements.

(** The whole run, with callbacks that do not ask to stop: the value returned and the final iterate
    are those of one thread. *)
Theorem C87_one_thread :
  forall (N : Num) n supp (G : nat -> list N -> list (nat * N)), separate n supp G ->
  forall maxIterations tolerance f step shuffle T share perm cbE grad cbG cbS sched,
  (forall h l, Permutation (perm h l) l) -> n <= T * share ->
  (forall h, cbE h = false) -> (forall h0 h, cbG h0 h = false) -> (forall h0 h, cbS h0 h = false) ->
  (forall x v h0 h idx, idx < n -> exists y, seen x h y /\ grad (OEval x v :: h0) h idx = G idx y) ->
  forall fuel x0 v xf full,
  psgd maxIterations tolerance shuffle T share f step perm cbE grad cbG cbS sched n fuel x0 = Ret (v, xf, full) ->
  serial_run (bound maxIterations) tolerance f step G n fuel 1 x0 nmax = Some (v, xf).
Proof. exact @psgd_serial. Qed.
Print Assumptions C87_one_thread.

(** So two runs that differ in the number of threads, the share of each, the shuffling, the schedule
    and what the threads happened to read return the same value and the same iterate. *)
Theorem C87_deterministic :
  forall (N : Num) n supp (G : nat -> list N -> list (nat * N)), separate n supp G ->
  forall maxIterations tolerance f step x0,
  forall shuffle T share perm cbE grad cbG cbS sched fuel v xf full,
  forall shuffle' T' share' perm' cbE' grad' cbG' cbS' sched' fuel' v' xf' full',
  (forall h l, Permutation (perm h l) l) -> n <= T * share ->
  (forall h, cbE h = false) -> (forall h0 h, cbG h0 h = false) -> (forall h0 h, cbS h0 h = false) ->
  (forall x v h0 h idx, idx < n -> exists y, seen x h y /\ grad (OEval x v :: h0) h idx = G idx y) ->
  psgd maxIterations tolerance shuffle T share f step perm cbE grad cbG cbS sched n fuel x0 = Ret (v, xf, full) ->
  (forall h l, Permutation (perm' h l) l) -> n <= T' * share' ->
  (forall h, cbE' h = false) -> (forall h0 h, cbG' h0 h = false) -> (forall h0 h, cbS' h0 h = false) ->
  (forall x v h0 h idx, idx < n -> exists y, seen x h y /\ grad' (OEval x v :: h0) h idx = G idx y) ->
  psgd maxIterations tolerance shuffle' T' share' f step perm' cbE' grad' cbG' cbS' sched' n fuel' x0 = Ret (v', xf', full') ->
  v = v' /\ xf = xf'.
Proof.
  intros N n supp G SEP maxIterations tolerance f step x0 shuffle T share perm cbE grad cbG cbS sched fuel v xf full
    shuffle' T' share' perm' cbE' grad' cbG' cbS' sched' fuel' v' xf' full' A1 A2 A3 A4 A5 A6 A7 B1 B2 B3 B4 B5 B6 B7.
  pose proof (psgd_serial n supp G SEP maxIterations tolerance f step shuffle T share perm cbE grad cbG cbS sched A1 A2 A3 A4 A5 A6 fuel x0 v xf full A7) as S1.
  pose proof (psgd_serial n supp G SEP maxIterations tolerance f step shuffle' T' share' perm' cbE' grad' cbG' cbS' sched' B1 B2 B3 B4 B5 B6 fuel' x0 v' xf' full' B7) as S2.
  pose proof (serial_more n G tolerance f step (bound maxIterations) _ _ _ _ _ _ _ S1 S2) as Q. injection Q as -> ->. auto.
Qed.
Print Assumptions C87_deterministic.

(** SparseTestFunction, the problem the library ships for this optimizer, has this form.  Over the
    reals, whatever the threads do, every run ends after some number e of epochs with each element at
    the same multiple of its distance from the minimiser, - b / 2 with b the coefficients of the
    function: the product of 1 - 2 h over the step sizes h of the epochs. *)
Theorem C87_sparse_test_function :
  forall mx maxIterations (tolerance : R) f (step : nat -> R) shuffle T share perm cbE grad cbG cbS sched,
  (forall h l, Permutation (perm h l) l) -> 4 <= T * share ->
  (forall h, cbE h = false) -> (forall h0 h, cbG h0 h = false) -> (forall h0 h, cbS h0 h = false) ->
  (forall x v h0 h idx, idx < 4 -> exists y, seen (N := RNum mx) x h y /\
     grad (OEval (N := RNum mx) x v :: h0) h idx = nonzeros 0 (sparse_gradient y idx 1)) ->
  forall fuel (x0 : list R) v (xf : list R) full, length x0 = 4 ->
  psgd (N := RNum mx) maxIterations tolerance shuffle T share f step perm cbE grad cbG cbS sched 4 fuel x0 = Ret (v, xf, full) ->
  exists e, e < bound maxIterations /\ length xf = 4 /\
    forall k, k < 4 -> (co xf k + co sparse_bi k / 2 = shrink step 1 e * (co x0 k + co sparse_bi k / 2))%R.
Proof. exact sparse_run. Qed.
Print Assumptions C87_sparse_test_function.

(** Parallel SGD is not deterministic when two functions depend on the same element: with two
    threads, the order of reads and writes decides the result, also with exact arithmetic. *)
Theorem C87_shared_element_refuted :
  exists sched sched' v v' (x x' : list ZNum),
  ended (run same_sq 2 2 1 (fun l => l) sched [1%Z]) = Some (v, x) /\
  ended (run same_sq 2 2 1 (fun l => l) sched' [1%Z]) = Some (v', x') /\ v <> v' /\ x <> x'.
Proof.
  exists both, one_by_one, (-5)%Z, 4%Z, [25%Z], [16%Z]. destruct runs_differ as [A B].
  split; [exact A|]. split; [exact B|]. split; discriminate.
Qed.
Print Assumptions C87_shared_element_refuted.

(** Too few threads for the share size leave functions out without notice, and then the number of
    threads does change the result. *)
Theorem C87_too_few_threads_refuted :
  exists v v' (x x' : list ZNum),
  ended (run own_sq 3 2 2 (fun l => l) both [1; 2; 3; 7]%Z) = Some (v, x) /\
  ended (run own_sq 3 1 1 (fun l => l) both [1; 2; 3; 7]%Z) = Some (v', x') /\ v <> v' /\ x <> x'.
Proof.
  destruct runs_agree as [A _]. exists (-5)%Z, 10%Z, [4; 8; 12; 7]%Z, [4; 2; 3; 7]%Z.
  split; [exact A|]. split; [exact runs_short|]. split; discriminate.
Qed.
Print Assumptions C87_too_few_threads_refuted.

(** Three functions of four elements, two epochs, three ways of running them: two threads in turn; the
    order reversed and one thread after the other; one thread.  The result is the same. *)
Example C87_case :
  separate (N := ZNum) 3 (fun i p => p = i) own_sq /\
  (forall x v h0 h idx, idx < 3 -> exists y, seen x h y /\ now own_sq (OEval x v :: h0) h idx = own_sq idx y) /\
  (exists tr, run own_sq 3 2 2 (fun l => l) both [1; 2; 3; 7]%Z = Ret ((-5)%Z, [4; 8; 12; 7]%Z, tr)) /\
  (exists tr, run own_sq 3 2 2 (@rev nat) one_by_one [1; 2; 3; 7]%Z = Ret ((-5)%Z, [4; 8; 12; 7]%Z, tr)) /\
  (exists tr, run own_sq 3 1 5 (fun l => l) one_by_one [1; 2; 3; 7]%Z = Ret ((-5)%Z, [4; 8; 12; 7]%Z, tr)) /\
  visited (run own_sq 3 2 2 (fun l => l) both [1; 2; 3; 7]%Z) = [[(0, 0); (1, 2); (0, 1)]; [(0, 0); (1, 2); (0, 1)]] /\
  visited (run own_sq 3 2 2 (@rev nat) one_by_one [1; 2; 3; 7]%Z) = [[(0, 2); (0, 1); (1, 0)]; [(0, 0); (0, 1); (1, 2)]].
Proof.
  destruct runs_agree as (A & B & C & D & E). split; [exact own_sq_separate|]. split; [exact (now_seen own_sq)|].
  split; [exact (ended_ret _ _ _ A)|]. split; [exact (ended_ret _ _ _ B)|]. split; [exact (ended_ret _ _ _ C)|]. split; [exact D|exact E].
Qed.

(** SparseTestFunction from (3, 2, 5/2, 5): an epoch of two threads with two functions each, all of
    them reading the values at the start of the epoch. *)
Example C87_sparse_case : forall mx (h : R),
  (forall x v h0 h idx, idx < 4 -> exists y, seen (N := RNum mx) x h y /\
     old_reads mx (OEval (N := RNum mx) x v :: h0) h idx = nonzeros 0 (sparse_gradient y idx 1)) /\
  exists v xf full,
  psgd (N := RNum mx) 2 0%R false 2 2 (fun _ => 0%R) (fun _ => h) (fun _ l => l) (fun _ => false) (old_reads mx)
    (fun _ _ => false) (fun _ _ => false) (fun _ => turns) 4 2 [3; 2; 5 / 2; 5]%R = Ret (v, xf, full).
Proof.
  intros mx h. split; [|exact (old_reads_run mx h)]. intros x v h0 h1 idx _. exists x. split; [|reflexivity].
  intros p. exists h1, []. split; [symmetry; apply app_nil_r|reflexivity].
Qed.
