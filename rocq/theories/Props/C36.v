(** C36: parallel SGD under every interleaving. *)
From Coq Require Import List Arith Bool ZArith Reals Lia Permutation.
From Verif.Base Require Import Num Instances.
From Verif.Model Require Import Common SA ParallelSgd.
From Verif.Spec Require Import ParSpec LpSpec.
From Verif.Proof Require Import ParProof ParRun ParEx.
Import ListNotations.

(** One epoch, any number of threads and any schedule after which all threads have finished: the
    functions processed are the first T * share of the visitation order, each once, by the thread
    that owns its position; the subtractions made are those of the gradients computed, each once;
    the iterate is the old one after these subtractions. *)
Theorem C36_epoch :
  forall (N : Num) share order (step : N) grad cbG cbS T sched x0 term s ls,
  pexec share order step grad cbG cbS sched {| s_it := x0; s_term := term; s_log := [] |} (start share T) = (s, ls) ->
  finished share order ls = true ->
  let es := rev (s_log s) in
  Permutation (map snd (computed es)) (firstn (T * share) order) /\
  Forall (fun e => exists j, fst e * share <= j < (fst e + 1) * share /\ nth_error order j = Some (snd e)) (computed es) /\
  Permutation (applied es) (wanted step es) /\
  s_it s = fold_left (fun y '(p, a) => sub_at p a y) (applied es) x0.
Proof. exact @epoch_ok. Qed.
Print Assumptions C36_epoch.

(** Enough threads: every function of the order, exactly once. *)
Theorem C36_all_functions :
  forall (N : Num) share order (step : N) grad cbG cbS T sched x0 term s ls,
  pexec share order step grad cbG cbS sched {| s_it := x0; s_term := term; s_log := [] |} (start share T) = (s, ls) ->
  finished share order ls = true -> length order <= T * share ->
  Permutation (map snd (computed (rev (s_log s)))) order.
Proof.
  intros N share order step grad cbG cbS T sched x0 term s ls E F L.
  destruct (epoch_ok share order step grad cbG cbS T sched x0 term s ls E F) as (A & _).
  rewrite firstn_all2 in A by exact L. exact A.
Qed.
Print Assumptions C36_all_functions.

(** Over the reals no update is lost: every element of the iterate ends at its old value minus the
    sum of the step-size multiples of all gradient elements computed for it. *)
Theorem C36_no_lost_update :
  forall mx share order (step : R) grad cbG cbS T sched (x0 : list R) term s ls p,
  pexec (N := RNum mx) share order step grad cbG cbS sched
    {| s_it := (x0 : list (RNum mx)); s_term := term; s_log := [] |} (start share T) = (s, ls) ->
  finished share order ls = true ->
  nth_error (s_it s) p =
  option_map (fun b => (b - sumR (amounts (N := RNum mx) p (wanted (N := RNum mx) step (rev (s_log s)))))%R) (nth_error x0 p).
Proof.
  intros mx share order step grad cbG cbS T sched x0 term s ls p E F.
  destruct (epoch_ok (N := RNum mx) share order step grad cbG cbS T sched x0 term s ls E F) as (_ & _ & A & B).
  refine (eq_trans (f_equal (fun l => nth_error l p) B) _). exact (real_sum mx _ _ x0 p A).
Qed.
Print Assumptions C36_no_lost_update.

(** No deadlock: unless all threads have finished, one can go on. *)
Theorem C36_progress :
  forall (N : Num) share order (step : N) grad cbG cbS s ls, finished share order ls = false ->
  exists t l, nth_error ls t = Some l /\ pstep share order step grad cbG cbS t s l <> None.
Proof. intros N share order step grad cbG cbS s ls H. exact (progress share order step grad cbG cbS s ls 0 H). Qed.
Print Assumptions C36_progress.

(** The whole run: epochs follow each other as described by [rounds] (Spec/ParSpec.v); fewer than
    maxIterations epochs (0: no limit); the value returned is the last objective computed. *)
Theorem C36_run :
  forall (N : Num) maxIterations (tolerance : N) shuffle T share f step perm cbE grad cbG cbS sched n fuel x0 v x tr,
  (forall h l, Permutation (perm h l) l) ->
  psgd maxIterations tolerance shuffle T share f step perm cbE grad cbG cbS sched n fuel x0 = Ret (v, x, tr) ->
  (exists body, tr = OBegin x0 :: body ++ [OEnd x] /\
    rounds (bound maxIterations) tolerance n T share f step cbE 1 [OBegin x0] false x0 nmax body x v) /\
  v = last (objectives tr) nmax /\
  length (objectives tr) < bound maxIterations /\ length (epochs tr) < bound maxIterations /\
  (forall o es, In (o, es) (epochs tr) -> Permutation o (seq 0 n) /\
     (n <= T * share -> Permutation (map snd (computed es)) (seq 0 n))).
Proof.
  intros N maxIterations tolerance shuffle T share f step perm cbE grad cbG cbS sched n fuel x0 v x tr PERM E.
  unfold psgd in E. assert (B1 : 1 <= bound maxIterations) by (unfold bound; destruct maxIterations; lia).
  destruct (loop_rounds maxIterations tolerance shuffle T share n f step perm cbE grad cbG cbS sched PERM
    fuel 1 (seq 0 n) x0 nmax false [OBegin x0] v x tr E B1 (Permutation_refl _) false (fun H => H)) as (body & ET & RB).
  destruct (rounds_facts maxIterations tolerance T share n f step cbE _ _ _ _ _ _ _ _ RB B1) as (A & B & C & D).
  simpl in ET. assert (EO : objectives tr = objectives body) by (rewrite ET; unfold objectives; simpl; rewrite flat_map_app; simpl; apply app_nil_r).
  assert (EP : epochs tr = epochs body) by (rewrite ET; unfold epochs; simpl; rewrite flat_map_app; simpl; apply app_nil_r).
  split; [exists body; auto|]. rewrite EO, EP. split; [exact A|]. split; [lia|]. split; [lia|].
  intros o es I. destruct (C o es I) as [P1 P2]. split; [exact P1|]. intros L.
  rewrite firstn_all2 in P2 by (rewrite (Permutation_length P1), seq_length; exact L). rewrite P2. exact P1.
Qed.
Print Assumptions C36_run.

(** With one thread a stop request is never lost. *)
Theorem C36_single_thread_stop :
  forall (N : Num) share order (step : N) grad cbG cbS sched x0 term s ls,
  pexec share order step grad cbG cbS sched {| s_it := x0; s_term := term; s_log := [] |} (start share 1) = (s, ls) ->
  finished share order ls = true -> s_term s = (term || par_asked (rev (s_log s)))%bool.
Proof. exact @single_stop. Qed.
Print Assumptions C36_single_thread_stop.
(** With two threads it can be: another thread writes back the value it had read before. *)
Theorem C36_stop_refuted :
  exists share order grad cbG cbS T sched x0 s ls,
  pexec (N := ZNum) share order 1%Z grad cbG cbS sched {| s_it := x0; s_term := false; s_log := [] |} (start share T) = (s, ls) /\
  finished share order ls = true /\ par_asked (rev (s_log s)) = true /\ s_term s = false.
Proof.
  exists 1, [0; 1], (fun _ _ => []), ask1, (fun _ => false), 2, race, [5]%Z, (fst race_run), (snd race_run).
  split; [unfold race_run; symmetry; apply surjective_pairing|exact lost_request].
Qed.
Print Assumptions C36_stop_refuted.
(* evaluates the call once *)
Lemma returns3 {A B C : Type} (o : outc (A * B * C)) (P : A -> B -> Prop) :
  match o with Ret (v, x, _) => P v x | _ => False end -> exists v x tr, o = Ret (v, x, tr) /\ P v x.
Proof. destruct o as [[[v x] tr]| |]; intros H; try contradiction. exists v, x, tr. split; [reflexivity|exact H]. Qed.
(** The value returned is not that of the final iterate when the limit is reached. *)
Theorem C36_value_refuted :
  exists (f : list ZNum -> ZNum) maxIterations T share step perm grad sched n fuel x0 v x tr,
  psgd (N := ZNum) maxIterations 0%Z true T share f step perm (fun _ => false) grad (fun _ _ => false) (fun _ _ => false) sched n fuel x0
    = Ret (v, x, tr) /\ v <> f x.
Proof.
  exists (fun x => nth 0 x 0%Z), 2, 2, 2, (fun _ => 2%Z), (fun _ l => rev l), (fun _ _ _ => [(0, 1%Z)]), ex_sched, 3, 5, [10; 7]%Z.
  apply (returns3 _ (fun v x => v <> nth 0 x 0%Z)). vm_compute. discriminate.
Qed.
Print Assumptions C36_value_refuted.

(** ExponentialBackoff: after the calls for epochs 1..n the step size has been multiplied by beta
    once for each of the epochs first, first + q, first + 2 q, ... up to n. *)
Theorem C36_backoff :
  forall (N : Num) q first (beta step : N), 1 <= q -> 1 <= first -> forall n, exists k,
  backed q first beta step n = (first + k * q, times beta step k) /\ n < first + k * q /\ (k = 0 \/ first + (k - 1) * q <= n).
Proof. exact @backed_ok. Qed.
Print Assumptions C36_backoff.

(** The hypotheses are met: a run with two threads in which every function is processed once. *)
Example C36_ex : exists tr, ex_run = Ret (10%Z, [4; 7]%Z, tr) /\
  map (fun '(o, es) => (o, computed es)) (epochs tr) = [([2; 1; 0], [(0, 2); (1, 0); (0, 1)])].
Proof. exact ex_run_value. Qed.
