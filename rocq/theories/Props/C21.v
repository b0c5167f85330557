(** C21: restarted CMA-ES (IPOP and BIPOP). *)
From Coq Require Import List Arith Bool ZArith Lia.
From Verif.Base Require Import Num Size Vec SortIdx Instances.
From Verif.Model Require Import Common Callbacks CMAES PopCMAES.
From Verif.Spec Require Import CommonSpec CMAESSpec PopCMAESSpec.
From Verif.Proof Require Import CMAESProof PopCMAESProof.
Import ListNotations.

(** Whatever the CMA-ES runs do: POP_CMAES makes run 0, 1, 2, ... (each from the
    user's starting point), at most maxRestarts + 1 of them, and stops early only
    (and as soon as) the number it counts reaches the evaluation budget.  Of the runs
    made, run j has the best result; the value and point returned are the best of
    all evaluations callbacks saw in the runs up to j. *)
Theorem C21_pop_cmaes :
  forall {N : Num} bipop maxRestarts maxFunctionEvaluations lambda0 (step0 : N)
         (run : nat -> nat -> N -> Res N (list N) (list N) * nat) grow small v x rs,
  OrdLaws N ->
  pop_optimize bipop maxRestarts maxFunctionEvaluations lambda0 step0 run grow small = (v, x, rs) ->
  (forall i r c, nth_error rs i = Some (r, c) -> exists lam st, run i lam st = (r, c)) /\
  1 <= length rs <= S maxRestarts /\
  (length rs = S maxRestarts \/ maxFunctionEvaluations <= counted (map snd rs)) /\
  (forall i, 1 < i < length rs -> counted (map snd (firstn i rs)) < maxFunctionEvaluations) /\
  exists j r c, nth_error rs j = Some (r, c) /\ (forall r' c', In (r', c') rs -> nlt (o_val r') (o_val r) = false) /\
    {| sb_obj := v; sb_x := x |} = sb_run (observed (firstn (S j) rs)).
Proof. intros N bp mr mf l0 s0 run grow small v x rs O. exact (pop_ok O bp mr mf l0 s0 run grow small v x rs). Qed.
Print Assumptions C21_pop_cmaes.

(** If every run's callbacks see a value at most the run's result (as with CMA-ES
    and a single batch, below), the value returned is not above any run's result. *)
Theorem C21_not_worse_than_any_run :
  forall {N : Num} bipop maxRestarts maxFunctionEvaluations lambda0 (step0 : N)
         (run : nat -> nat -> N -> Res N (list N) (list N) * nat) grow small v x rs,
  OrdLaws N ->
  (forall i lam st, exists y o, In (Ev y o) (o_tr (fst (run i lam st))) /\ nisnan o = false /\ nle o (o_val (fst (run i lam st))) = true) ->
  pop_optimize bipop maxRestarts maxFunctionEvaluations lambda0 step0 run grow small = (v, x, rs) ->
  forall r c, In (r, c) rs -> nlt (o_val r) v = false.
Proof. intros N bp mr mf l0 s0 run grow small v x rs O. exact (pop_least O bp mr mf l0 s0 run grow small v x rs). Qed.
Print Assumptions C21_not_worse_than_any_run.

(** CMA-ES runs with all functions in one batch meet that condition. *)
Theorem C21_cmaes_result_seen :
  forall {N : Num} mi lambda patience (tolerance big : N) feval n tf w A sample adapt sort_index cb a0 sigma0 x r,
  OrdLaws N ->
  (forall l : list N, no_nan l -> sorted_index l (sort_index l)) ->
  (forall i a d, sample i a = Some d -> length d = lambda) ->
  (forall v : N, nisnan v = false -> nle v (nadd n0 v) = true) ->
  (forall y, nisnan (feval y 0 n) = false /\ nisnan (total feval [(0, n)] y) = false) ->
  cma_optimize mi lambda patience tolerance big feval [(0, n)] (fun _ _ => [(0, n)]) tf w A sample adapt sort_index cb a0 sigma0 x = Ret r ->
  exists y o, In (Ev y o) (o_tr r) /\ nisnan o = false /\ nle o (o_val r) = true.
Proof.
  intros N mi lambda patience tol big feval n tf w A sample adapt si cb a0 sigma0 x r O HS HA HZ NN E.
  destruct (cma_ok mi lambda patience tol big feval [(0, n)] tf w A sample adapt si cb HS HA a0 sigma0 x r E)
    as (es & bs & sigma & b & _ & G & V & X & TR & _).
  assert (K : b = x \/ In (Ev (tf b) (total feval [(0, n)] (tf b))) es).
  { clear - G. induction G as [|i m sigma a b steps order idx step m' a' sigma1 b1 es bs sigma' b' HL HP HD member HS HW HM HA HB HG IH]; [left; reflexivity|].
    destruct IH as [IH|IH].
    - rewrite IH, HB. destruct (nlt _ _) eqn:Q; [right|left; reflexivity].
      apply in_or_app. right. apply in_or_app. left. left. reflexivity.
    - right. apply in_or_app. right. apply in_or_app. right. apply in_or_app. right. exact IH. }
  rewrite V, TR. destruct K as [->|K].
  - exists (tf x), (feval (tf x) 0 n). split; [left; reflexivity|]. split; [apply NN|]. apply HZ. apply NN.
  - exists (tf b), (total feval [(0, n)] (tf b)). split; [apply in_or_app; right; right; apply in_or_app; left; exact K|].
    split; [apply NN|]. apply (ol_total _ O); try apply NN. apply (ol_irrefl _ O).
Qed.
Print Assumptions C21_cmaes_result_seen.

Definition cb21 (stop : bool) : CB ZNum (list ZNum) (list ZNum) := {| cs_stop := fun _ => stop; cs_grad := fun _ _ _ g => g |}.
(** runs of the model of CMA-ES from x0 = 3 *)
Definition cma21 (feval : list ZNum -> nat -> nat -> ZNum) cs stop (draws : nat -> list (list Z)) (k lam : nat) (st : ZNum) :=
  match cma_optimize (N := ZNum) 2 2 0 1%Z 100%Z feval cs (fun _ _ => cs) (fun x => x) [1; 1]%Z nat
    (fun _ a => Some (draws a)) (fun _ a sg _ _ _ => (a, sg)) isort_index (cb21 stop) k 1%Z [3%Z] with
  | Ret r => (r, 10)
  | _ => ({| o_val := 0%Z; o_x := []; o_tr := [] |}, 0)
  end.
Definition sq21 (x : list ZNum) (b k : nat) : ZNum := (nth 0 x 0 * nth 0 x 0)%Z.
Definition pop21 feval cs stop draws restarts budget :=
  pop_optimize false restarts budget 2 1%Z (cma21 feval cs stop draws) (fun l => 2 * l) (fun _ _ _ => (1, 1%Z)).

(** The point returned need not be the best one evaluated in all runs: here the
    restart evaluates the point 1 (value 1), but as the restart's own result (the
    best mean) is no improvement the value 9 of the first run is returned. *)
Theorem C21_best_of_all_evaluations_refuted :
  exists v x rs, pop21 sq21 [(0, 1)] false (fun k => match k with O => [[5]; [6]] | _ => [[-2]; [5]] end)%Z 1 1000 = (v, x, rs) /\
    v = 9%Z /\ x = Some [3%Z] /\ In ([1%Z], 1%Z) (observed rs).
Proof. eexists _, _, _. split; [vm_compute; reflexivity|]. cbn. split; [reflexivity|]. split; [reflexivity|]. tauto. Qed.
Print Assumptions C21_best_of_all_evaluations_refuted.

(** With more than one batch the callbacks see partial sums, and the value returned
    is one of these rather than the objective of the point returned. *)
Definition two21 (x : list ZNum) (b k : nat) : ZNum := match b with O => 1%Z | _ => 100%Z end.
Theorem C21_value_is_the_objective_refuted :
  exists v x rs, pop21 two21 [(0, 1); (1, 1)] false (fun _ => [[5]; [6]])%Z 1 1000 = (v, Some x, rs) /\
    v = 1%Z /\ total two21 [(0, 1); (1, 1)] x = 101%Z.
Proof. eexists _, _, _. split; [vm_compute; reflexivity|]. split; reflexivity. Qed.
Print Assumptions C21_value_is_the_objective_refuted.

(** A stop request ends the current run but not the restarts. *)
Theorem C21_stop_request_ends_optimization_refuted :
  exists v x rs, pop21 sq21 [(0, 1)] true (fun _ => [[5]; [6]])%Z 3 1000 = (v, x, rs) /\ length rs = 4.
Proof. eexists _, _, _. split; [vm_compute; reflexivity|]. reflexivity. Qed.

(** The budget counts evaluations of earlier runs again and again: 30 evaluations in
    three runs count as 50. *)
Theorem C21_budget_counts_evaluations_refuted :
  list_sum [10; 10; 10] = 30 /\ counted [10; 10; 10] = 50 /\
  exists v x rs, pop21 sq21 [(0, 1)] false (fun _ => [[5]; [6]])%Z 9 40 = (v, x, rs) /\ length rs = 3 /\ list_sum (map snd rs) = 30.
Proof. split; [reflexivity|]. split; [reflexivity|]. eexists _, _, _. split; [vm_compute; reflexivity|]. split; reflexivity. Qed.
Print Assumptions C21_budget_counts_evaluations_refuted.

(** A restart that improves is the one returned. *)
Example C21_run : match pop21 sq21 [(0, 1)] false (fun k => match k with O => [[5]; [6]] | S O => [[-2]; [-1]] | _ => [[7]; [7]] end)%Z 2 1000 with
  | (v, Some x, rs) => (v, x, length rs) = (0%Z, [0%Z], 3) | _ => False end.
Proof. vm_compute. reflexivity. Qed.
