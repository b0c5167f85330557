(** C82: which stochastic methods make progress on convex functions: momentum does, Adam
    need not. *)
From Coq Require Import List Arith Bool Reals Lra Lia.
From Verif.Base Require Import Num Instances.
From Verif.Model Require Import Sgd Updates SgdPolicies.
From Verif.Spec Require Import SgdSpec Gradient ConvergeSpec RegretSpec DriftSpec.
From Verif.Proof Require Import SgdMore SmoothProof RegretProof MomentumRegret AdamDrift.
Import ListNotations.
Local Open Scope R_scope.

(** Heavy ball (MomentumUpdate, NoDecay), any batch size, shuffled or not, stopped for any
    reason: what the run paid, minus what the same batches cost at [y], is at most
      (1 - mu)/(2 step) |x0 - y|^2 + step (1 + mu)/(2 (1 - mu)^2) * (sum of the squared gradients). *)
Theorem C82_momentum_regret :
  forall (mx mu alpha : R), 0 <= mu < 1 -> 0 < alpha ->
  forall n f (cb : Callbacks (RNum mx) (list R) (list R)) (c : Cfg (RNum mx) (list R) (list R) (list R) unit)
    (x0 y : list R) fuel (r : res (RNum mx) (list R) (list R) (list R) unit),
  convex_batches mx f n -> (forall h g, cb_grad cb h g = g) -> length x0 = n -> length y = n ->
  (0 < sf_num f)%nat -> (0 < c_batch c)%nat -> c_dp c = sgd_no_decay (N := RNum mx) ->
  optimize_with c f cb fuel (sgd_velocity_init (N := RNum mx) x0) tt alpha x0 = Return r ->
  c_up c = sgd_momentum (N := RNum mx) mu ->
  sumR (paid mx (r_trace r)) - sumR (at_point mx f y 0 (r_trace r)) <=
    (1 - mu) / (2 * alpha) * sqdist x0 y + alpha * (1 + mu) / (2 * ((1 - mu) * (1 - mu))) * sumR (map sqn (batch_grads mx (r_trace r))).
Proof. exact momentum_regret. Qed.
Print Assumptions C82_momentum_regret.

(** Nesterov's momentum: the same with 1 - mu + 2 mu^2 in the place of 1 + mu. *)
Theorem C82_nesterov_regret :
  forall (mx mu alpha : R), 0 <= mu < 1 -> 0 < alpha ->
  forall n f (cb : Callbacks (RNum mx) (list R) (list R)) (c : Cfg (RNum mx) (list R) (list R) (list R) unit)
    (x0 y : list R) fuel (r : res (RNum mx) (list R) (list R) (list R) unit),
  convex_batches mx f n -> (forall h g, cb_grad cb h g = g) -> length x0 = n -> length y = n ->
  (0 < sf_num f)%nat -> (0 < c_batch c)%nat -> c_dp c = sgd_no_decay (N := RNum mx) ->
  optimize_with c f cb fuel (sgd_velocity_init (N := RNum mx) x0) tt alpha x0 = Return r ->
  c_up c = sgd_nesterov (N := RNum mx) mu ->
  sumR (paid mx (r_trace r)) - sumR (at_point mx f y 0 (r_trace r)) <=
    (1 - mu) / (2 * alpha) * sqdist x0 y + alpha * (1 - mu + 2 * mu * mu) / (2 * ((1 - mu) * (1 - mu))) * sumR (map sqn (batch_grads mx (r_trace r))).
Proof. exact nesterov_regret. Qed.
Print Assumptions C82_nesterov_regret.

(** Quasi-hyperbolic momentum (QHUpdate) with weight nu >= 0. *)
Theorem C82_qh_regret :
  forall (mx mu alpha : R), 0 <= mu < 1 -> 0 < alpha ->
  forall n f (cb : Callbacks (RNum mx) (list R) (list R)) (c : Cfg (RNum mx) (list R) (list R) (list R) unit)
    (x0 y : list R) fuel (r : res (RNum mx) (list R) (list R) (list R) unit),
  convex_batches mx f n -> (forall h g, cb_grad cb h g = g) -> length x0 = n -> length y = n ->
  (0 < sf_num f)%nat -> (0 < c_batch c)%nat -> c_dp c = sgd_no_decay (N := RNum mx) ->
  optimize_with c f cb fuel (sgd_velocity_init (N := RNum mx) x0) tt alpha x0 = Return r ->
  forall nu, 0 <= nu -> c_up c = sgd_qh (N := RNum mx) mu nu ->
  sumR (paid mx (r_trace r)) - sumR (at_point mx f y 0 (r_trace r)) <=
    / (2 * alpha) * sqdist x0 y + alpha * (1 - mu + 2 * mu * nu) / (2 * (1 - mu)) * sumR (map sqn (batch_grads mx (r_trace r))).
Proof. exact qh_regret. Qed.
Print Assumptions C82_qh_regret.

(** Nothing of the kind holds for Adam.  The functions 10x, -x, -x are convex with sum 8x;
    with beta1 = 0, beta2 = 1/101, batch size 1 and no shuffling, every pass of Adam moves
    the iterate up by at least half the step size, for every step size and every epsilon up
    to 1/100: the objective rises without bound, although its slope is 8 everywhere. *)
Theorem C82_adam_progress_refuted :
  forall (mx alpha eps x0 : R) (cb : Callbacks (RNum mx) (list R) (list R)) fuel E
    (c : Cfg (RNum mx) (list R) (list R) (list (@adam_st (RNum mx))) unit) r,
  0 < alpha -> 0 < eps <= 1 / 100 ->
  (forall h g, cb_grad cb h g = g) -> (forall h, cb_stop cb h = false) ->
  c_batch c = 1%nat -> c_max c = (3 * S E)%nat -> c_tol c = 0 ->
  c_up c = sgd_adam (N := RNum mx) pow eps 0 (1 / 101) -> c_dp c = sgd_no_decay (N := RNum mx) ->
  optimize_with c (lin3 mx) cb fuel (sgd_adam_init (N := RNum mx) [x0]) tt alpha [x0] = Return r ->
  fst (sf_evalgrad (lin3 mx) 0 (r_x r) 0 3) >= 8 * x0 + INR (S E) * (4 * alpha).
Proof. exact adam_drifts. Qed.
Print Assumptions C82_adam_progress_refuted.

(** AMSGrad, which divides by the largest second moment so far, goes down on the same
    functions with the same parameters, by at least as much. *)
Theorem C82_amsgrad_progress :
  forall (mx alpha eps x0 : R) (cb : Callbacks (RNum mx) (list R) (list R)) fuel E
    (c : Cfg (RNum mx) (list R) (list R) (list (@adam_st (RNum mx))) unit) r,
  0 < alpha -> 0 < eps <= 1 / 100 ->
  (forall h g, cb_grad cb h g = g) -> (forall h, cb_stop cb h = false) ->
  c_batch c = 1%nat -> c_max c = (3 * S E)%nat -> c_tol c = 0 ->
  c_up c = sgd_amsgrad (N := RNum mx) pow eps 0 (1 / 101) -> c_dp c = sgd_no_decay (N := RNum mx) ->
  optimize_with c (lin3 mx) cb fuel (sgd_adam_init (N := RNum mx) [x0]) tt alpha [x0] = Return r ->
  fst (sf_evalgrad (lin3 mx) 0 (r_x r) 0 3) <= 8 * x0 - INR (S E) * (4 * alpha).
Proof. exact amsgrad_goes_down. Qed.
Print Assumptions C82_amsgrad_progress.

(** [lin3] has convex batches (so the momentum bounds apply to it) and the runs exist. *)
Example C82_example : forall (mx alpha eps : R) E,
  convex_batches mx (lin3 mx) 1 /\
  (exists r, optimize_with (@Build_Cfg (RNum mx) (list R) (list R) (list (@adam_st (RNum mx))) unit 1 (3 * S E) 0 false false
      (sgd_adam (N := RNum mx) pow eps 0 (1 / 101)) (sgd_no_decay (N := RNum mx))) (lin3 mx)
      {| cb_stop := fun _ => false; cb_grad := fun _ g => g |} (4 + 3 * S E) (sgd_adam_init (N := RNum mx) [0]) tt alpha [0] = Return r) /\
  (exists r, optimize_with (@Build_Cfg (RNum mx) (list R) (list R) (list R) unit 2 (3 * S E) 0 true false
      (sgd_momentum (N := RNum mx) (1 / 2)) (sgd_no_decay (N := RNum mx))) (lin3 mx)
      {| cb_stop := fun _ => false; cb_grad := fun _ g => g |} (4 + 3 * S E) (sgd_velocity_init (N := RNum mx) [0]) tt alpha [0] = Return r).
Proof.
  intros mx alpha eps E. split; [|split; apply c02_terminates; cbn; lia].
  intros j b k [|x [|]] [|y [|]] Lx Ly; try discriminate. split; [reflexivity|]. unfold batch_value. cbn [lin3 sf_evalgrad fst snd dotR nth].
  revert b. induction k as [|k IH]; intros b; cbn [seq map sumR]; [lra|]. specialize (IH (S b)). lra.
Qed.
