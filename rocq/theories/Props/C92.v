(** C92: WNGrad converges for every step size. *)
From Coq Require Import List Arith Bool Reals Lra Lia.
From Verif.Base Require Import Num Instances.
From Verif.Model Require Import Sgd Updates SgdPolicies.
From Verif.Spec Require Import SgdSpec Gradient FWSpec ConvergeSpec RegretSpec WnSpec.
From Verif.Proof Require Import SgdMore SmoothProof WnConverge.
Import ListNotations.
Local Open Scope R_scope.

(** The objective [f] (the sum of the functions) has a gradient with Lipschitz constant L and is
    bounded below by [low]; it need not be convex.  SGD with WNGradUpdate and NoDecay takes every batch
    to be the whole objective; the callbacks only watch.  Then, for every step size, every initial B()
    and however long the run is, with a = B() / stepSize before the run:
    B() never falls and never exceeds stepSize * cap, so that the effective step never falls below
    1 / cap; no iterate has an objective more than L^2 / (2 a) above the initial one; the squared
    gradients at all the iterates add up to at most cap (cap - a), so that one of the first k of
    them is at most that divided by k. *)
Theorem C92_any_step_size :
  forall mx n L low f grad (sf : SepFun (RNum mx) (list R) (list R)) (cb : Callbacks (RNum mx) (list R) (list R))
    (c : Cfg (RNum mx) (list R) (list R) R unit) (b0 alpha : R) (x0 : list R) fuel (r : res (RNum mx) (list R) (list R) R unit),
  smooth_on (space n) L f grad -> 0 < L -> (forall x, length x = n -> low <= f x) ->
  (0 < sf_num sf)%nat -> (forall j x, length x = n -> sf_evalgrad sf j x 0 (sf_num sf) = (f x, grad x)) ->
  (forall h g, cb_grad cb h g = g) -> (0 < c_batch c)%nat -> c_dp c = sgd_no_decay (N := RNum mx) ->
  0 < b0 -> 0 < alpha -> length x0 = n -> c_up c = wngrad_up (N := RNum mx) (fun g => sqrt (sqn g)) ->
  optimize_with c sf cb fuel b0 tt alpha x0 = Return r ->
  (forall y i k o g, In (EvalGrad y i k o g) (r_trace r) -> i = 0%nat /\ k = sf_num sf) ->
  let a := b0 / alpha in
  let cap := wn_cap L a (f x0 - low) in
  let points := batch_points mx (r_trace r) in
  b0 <= r_u r <= alpha * cap /\
  (forall y, In y (r_x r :: points) -> f y - low <= wn_height L a (f x0 - low)) /\
  sumR (map (fun y => sqn (grad y)) points) <= cap * (cap - a) /\
  ((0 < length points)%nat -> exists y, In y points /\ INR (length points) * sqn (grad y) <= cap * (cap - a)).
Proof. exact wn_converges. Qed.
Print Assumptions C92_any_step_size.

(** When NumFunctions() is 1 every batch is the whole objective, so nothing has to be known about the
    run; this covers the objectives that are not sums. *)
Theorem C92_one_function :
  forall mx n L low f grad (sf : SepFun (RNum mx) (list R) (list R)) (cb : Callbacks (RNum mx) (list R) (list R))
    (c : Cfg (RNum mx) (list R) (list R) R unit) (b0 alpha : R) (x0 : list R) fuel (r : res (RNum mx) (list R) (list R) R unit),
  smooth_on (space n) L f grad -> 0 < L -> (forall x, length x = n -> low <= f x) ->
  sf_num sf = 1%nat -> (forall j x, length x = n -> sf_evalgrad sf j x 0 1 = (f x, grad x)) ->
  (forall h g, cb_grad cb h g = g) -> (0 < c_batch c)%nat -> c_dp c = sgd_no_decay (N := RNum mx) ->
  0 < b0 -> 0 < alpha -> length x0 = n -> c_up c = wngrad_up (N := RNum mx) (fun g => sqrt (sqn g)) ->
  optimize_with c sf cb fuel b0 tt alpha x0 = Return r ->
  let cap := wn_cap L (b0 / alpha) (f x0 - low) in
  let points := batch_points mx (r_trace r) in
  r_u r <= alpha * cap /\
  ((0 < length points)%nat -> exists y, In y points /\ INR (length points) * sqn (grad y) <= cap * cap).
Proof.
  intros mx n L low f grad sf cb c b0 alpha x0 fuel r SM HL LOW N1 EV CB HB ED HB0 HA Lx EU E cap points.
  assert (EV' : forall j x, length x = n -> sf_evalgrad sf j x 0 (sf_num sf) = (f x, grad x)) by (rewrite N1; exact EV).
  assert (HN : (0 < sf_num sf)%nat) by lia.
  destruct (wn_converges mx n L low f grad sf cb c b0 alpha x0 fuel r SM HL LOW HN EV' CB HB ED HB0 HA Lx EU E
    (one_function_batches mx sf cb c fuel b0 tt alpha x0 r N1 HB E)) as ((B1 & B2) & _ & _ & G).
  split; [exact B2|]. intros P. destruct (G P) as (y & Iy & Q). exists y. split; [exact Iy|]. fold cap points in Q, B2.
  assert (A0 : 0 < b0 / alpha) by (apply Rdiv_lt_0_compat; assumption).
  assert (C0 : b0 / alpha <= cap).
  { apply (Rmult_le_reg_l alpha); [exact HA|]. replace (alpha * (b0 / alpha)) with b0 by (field; lra). lra. }
  assert (0 <= cap * (b0 / alpha)) by (apply Rmult_le_pos; lra). lra.
Qed.
Print Assumptions C92_one_function.

(** "SGD converges for every step size" is false without the adaptation: with VanillaUpdate and step
    size 3 on x^2 / 2, from 1, the iterate after k steps is (-2)^k. *)
Theorem C92_plain_sgd_refuted :
  forall mx (cb : Callbacks (RNum mx) (list R) (list R)) (c : Cfg (RNum mx) (list R) (list R) (list unit) unit) fuel r,
  (forall h g, cb_grad cb h g = g) -> (0 < c_batch c)%nat -> c_up c = sgd_vanilla (N := RNum mx) -> c_dp c = sgd_no_decay (N := RNum mx) ->
  optimize_with c (half_square mx) cb fuel [tt] tt 3 [1] = Return r ->
  r_x r = [(- 2) ^ length (batch_points mx (r_trace r))].
Proof. exact plain_diverges. Qed.
Print Assumptions C92_plain_sgd_refuted.

(** WNGrad with the same step size, on the same function and from the same start, meets the
    hypotheses for runs of every length; and so do the runs of plain SGD. *)
Example C92_case : forall mx K,
  smooth_on (space 1) 1 (fun x => / 2 * sqn x) (fun x => x) /\ (forall x, length x = 1%nat -> 0 <= / 2 * sqn x) /\
  (forall j (x : list R), sf_evalgrad (half_square mx) j x 0 1 = (/ 2 * sqn x, x)) /\
  (exists r, optimize_with (@Build_Cfg (RNum mx) (list R) (list R) R unit 1 (S K) 0 true false
      (wngrad_up (N := RNum mx) (fun g => sqrt (sqn g))) (sgd_no_decay (N := RNum mx))) (half_square mx)
      {| cb_stop := fun _ => false; cb_grad := fun _ g => g |} (4 + S K) 1 tt 3 [1] = Return r) /\
  (exists r, optimize_with (@Build_Cfg (RNum mx) (list R) (list R) (list unit) unit 1 (S K) 0 true false
      (sgd_vanilla (N := RNum mx)) (sgd_no_decay (N := RNum mx))) (half_square mx)
      {| cb_stop := fun _ => false; cb_grad := fun _ g => g |} (4 + S K) [tt] tt 3 [1] = Return r).
Proof.
  intros mx K. split; [apply half_square_smooth|].
  split; [intros x _; pose proof (sqn_nonneg x); lra|]. split; [reflexivity|]. split; apply c02_terminates; cbn; lia.
Qed.
(** one step with step size 1 from 2 with B() = 1: B() becomes 5 and the iterate 2 - 2/5 *)
Example C92_step : forall mx, exists b x, wngrad_up (N := RNum mx) (fun g => sqrt (sqn g)) 1 [2] 1 [2] = (b, [x]) /\ b = 5 /\ x = 8 / 5.
Proof.
  intros mx. do 2 eexists. split; [reflexivity|]. assert (Q : sqrt (sqn [2]) * sqrt (sqn [2]) = 4).
  { rewrite sqrt_sqrt; [cbn; lra|apply sqn_nonneg]. }
  cbn [nadd nmul ndiv nsub RNum]. split; [|cbn [nadd nmul ndiv nsub RNum]]; rewrite Q; lra.
Qed.
