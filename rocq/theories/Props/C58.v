(** C58: Eve's objective-driven decay stays within its clip range. *)
From Coq Require Import List Reals Arith ZArith Lra Lia.
From Verif.Base Require Import Num Instances.
From Verif.Model Require Import Sgd Eve.
From Verif.Spec Require Import SgdSpec UpdatesSpec SwatsSpec EveSpec EveRunSpec.
From Verif.Proof Require Import EveProof EveStop.
Import ListNotations.
Local Open Scope R_scope.

(** The coefficient lies in [1/clip, clip] after every sequence of objective values,
    so it is positive and dividing the step by it is safe. *)
Theorem C58_clip_range :
  forall (eps clip b3 : R) (objs : list R), 1 <= clip -> 0 <= b3 <= 1 ->
  1 / clip <= eve_dt eps clip b3 objs <= clip.
Proof. exact dt_range. Qed.
Print Assumptions C58_clip_range.

(** Every run: the final iterate is reached by steps x - stepSize/dt * m^/(sqrt v^ + eps),
    where dt is the coefficient above of the objective values seen so far and m^, v^
    are the moments of the gradients seen so far, corrected by the number of functions
    visited; at most maxIterations functions are visited; a stop request after an
    evaluation suppresses the step. *)
Theorem C58_eve :
  forall (mx : R) (c : ecfg (N := RNum mx)) (f : SepFun (RNum mx) (list (RNum mx)) (list (RNum mx)))
         (cb : Callbacks (RNum mx) (list (RNum mx)) (list (RNum mx))) (x0 : list R),
  (0 < sf_num f)%nat -> (0 < e_batch c)%nat ->
  (forall h sh x b k, length x = length x0 -> length (cb_grad cb h (snd (sf_evalgrad f sh x b k))) = length x0) ->
  forall (fuel : nat) (r : eres (N := RNum mx)),
  eve_optimize (N := RNum mx) pow c f cb fuel x0 = Return r ->
  exists objs grads,
    eve_path mx (length x0) (e_step c) (e_b1 c) (e_b2 c) (e_b3 c) (e_eps c) (e_clip c) f cb x0
      (rev (er_trace r)) objs grads (er_x r) /\
    (visits (er_trace r) <= limit (e_max c))%nat.
Proof. exact eve_ok_limit. Qed.
Print Assumptions C58_eve.

Theorem C58_eve_terminates :
  forall (mx : R) (c : ecfg (N := RNum mx)) (f : SepFun (RNum mx) (list (RNum mx)) (list (RNum mx)))
         (cb : Callbacks (RNum mx) (list (RNum mx)) (list (RNum mx))) (x0 : list R),
  (0 < sf_num f)%nat -> (0 < e_batch c)%nat ->
  (forall h sh x b k, length x = length x0 -> length (cb_grad cb h (snd (sf_evalgrad f sh x b k))) = length x0) ->
  forall fuel : nat, (limit (e_max c) < fuel)%nat -> (sf_num f < fuel)%nat ->
  exists r, eve_optimize (N := RNum mx) pow c f cb fuel x0 = Return r.
Proof. exact eve_terminates_limit. Qed.
Print Assumptions C58_eve_terminates.

(** Two functions x^2 in one variable satisfy the hypotheses, and the objective
    values 1, 3 give 1/2 + 1/2 * 2 with clip 10. *)
Definition ex58 (mx : R) : SepFun (RNum mx) (list (RNum mx)) (list (RNum mx)) :=
  Build_SepFun (RNum mx) (list (RNum mx)) (list (RNum mx)) 2 (fun _ x _ k => (INR k * nth 0 x 0 * nth 0 x 0 : R)%R : RNum mx)
    (fun _ x _ k => ((INR k * nth 0 x 0 * nth 0 x 0 : R) : RNum mx, [(INR k * 2 * nth 0 x 0 : R) : RNum mx])).
Example C58_example : forall mx,
  (0 < sf_num (ex58 mx))%nat /\
  (forall (h : list (event (RNum mx) (list (RNum mx)) (list (RNum mx)))) sh x b k, length x = 1%nat ->
     length (snd (sf_evalgrad (ex58 mx) sh x b k)) = 1%nat) /\
  eve_dt 0 10 (1/2) [1; 3] = 3/2.
Proof.
  intros mx. split; [simpl; lia|]. split; [intros; reflexivity|].
  unfold eve_dt. cbn. unfold clip_to. replace (Rabs (3 - 1)) with 2 by (rewrite Rabs_right; lra).
  rewrite (Rmin_right 3 1) by lra. rewrite Rmax_left by lra. rewrite Rmin_left by lra. field.
Qed.

(** When a run goes on and what it returns, in any arithmetic.  The history [h] up to
    the end of the loop obeys [eve_log]: each evaluation visits the next functions of the
    pass, no more than the batch size, the functions left in the pass and the visits left;
    a step follows each evaluation unless a callback asked to stop; a new pass begins
    exactly where one ended whose objective sum is finite and not within the tolerance of
    the sum of the pass before (DBL_MAX before the first), and the functions are then
    shuffled if shuffle is set.  The run ends when a pass fails that test, and
    returns the sum of that pass, even with exactObjective; or when maxIterations
    functions are visited or a callback asked to stop.  It then returns the objective of
    all the functions at the final iterate with exactObjective, and the running sum
    otherwise. *)
Theorem C58_eve_run :
  forall (N : Num) (pw : N -> nat -> N) (c : ecfg (N := N)) (f : SepFun N (list N) (list N))
         (cb : Callbacks N (list N) (list N)),
  (0 < sf_num f)%nat -> (0 < e_batch c)%nat ->
  forall (fuel : nat) (x : list N) (r : eres (N := N)),
  eve_optimize pw c f cb fuel x = Return r ->
  exists h evals, er_trace r = rev (EndOpt (er_x r) :: evals ++ h) /\
    eve_log cb (sf_num f) (e_batch c) (limit (e_max c)) (e_tol c) (e_shuffle c) h /\
    ((pass_ended (e_tol c) h /\ er_val r = fst (pass h) /\ evals = []) \/
     (run_over cb (limit (e_max c)) h /\
      if e_exact c then er_val r = full_objective f (e_batch c) (count_shuffles h) (er_x r) /\ Forall is_eval evals
      else er_val r = running (limit (e_max c)) h /\ evals = [])).
Proof. exact @eve_run_limit. Qed.
Print Assumptions C58_eve_run.

(** A stop request made when a pass ends makes Eve return 0 rather than the objective of
    that pass: the sum is reset before the loop condition is tested (189-195, 105). *)
Definition one58 : SepFun ZNum (list ZNum) (list ZNum) :=
  Build_SepFun ZNum (list ZNum) (list ZNum) 1 (fun _ _ _ _ => 7%Z) (fun _ _ _ _ => (7%Z, [1%Z])).
Definition stop58 : Callbacks ZNum (list ZNum) (list ZNum) :=
  Build_Callbacks ZNum (list ZNum) (list ZNum) (fun h => match h with EndEpoch _ _ _ :: _ => true | _ => false end) (fun _ g => g).
Definition cfg58 (tol : Z) : ecfg (N := ZNum) :=
  Build_ecfg (N := ZNum) 1%Z 1 0%Z 0%Z 0%Z 1%Z 1%Z 10 tol false false.
Theorem C58_stopped_run_returns_pass_sum_refuted :
  exists r, eve_optimize (fun _ _ => 0%Z) (cfg58 0) one58 stop58 20 [3%Z] = Return r /\
    visits (er_trace r) = 1%nat /\ er_val r = 0%Z /\ er_val r <> sf_eval one58 0 (er_x r) 0 1.
Proof. eexists. split; [vm_compute; reflexivity|]. split; [reflexivity|]. split; [reflexivity|]. vm_compute. discriminate. Qed.
Print Assumptions C58_stopped_run_returns_pass_sum_refuted.

(** A run that ends because the second pass is within the tolerance of the first: the
    first pass is compared with DBL_MAX and goes on. *)
Example C58_run_example :
  exists r, eve_optimize (fun _ _ => 0%Z) (cfg58 1) one58
      (Build_Callbacks ZNum (list ZNum) (list ZNum) (fun _ => false) (fun _ g => g)) 20 [3%Z] = Return r /\
    er_val r = 7%Z /\ visits (er_trace r) = 2%nat.
Proof. eexists. split; [vm_compute; reflexivity|]. split; reflexivity. Qed.
