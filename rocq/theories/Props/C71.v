(** C71: what SGD and AdaGrad pay on convex functions, compared with any fixed point. *)
From Coq Require Import List Arith Bool Reals Lra Lia.
From Verif.Base Require Import Num Instances.
From Verif.Model Require Import Sgd SgdPolicies.
From Verif.Spec Require Import SgdSpec Gradient ConvergeSpec RegretSpec.
From Verif.Proof Require Import SgdMore SmoothProof RegretProof.
Import ListNotations.
Local Open Scope R_scope.

(** Plain SGD (VanillaUpdate, NoDecay), any batch size, shuffled or not, stopped for any
    reason: the sum of all batch objectives reported, minus what the same batches cost at
    [y], is at most (|x0 - y|^2 - |x_final - y|^2) / (2 step) + step/2 * (sum of the squared
    gradients).  The batches must be convex, not differentiable. *)
Theorem C71_sgd_regret :
  forall (mx : R) n alpha f (cb : Callbacks (RNum mx) (list R) (list R)) (c : Cfg (RNum mx) (list R) (list R) (list unit) unit)
    (x0 : list R) fuel (r : res (RNum mx) (list R) (list R) (list unit) unit) y,
  0 < alpha -> convex_batches mx f n -> (forall h g, cb_grad cb h g = g) -> length x0 = n -> length y = n ->
  (0 < sf_num f)%nat -> (0 < c_batch c)%nat -> c_up c = sgd_vanilla (N := RNum mx) -> c_dp c = sgd_no_decay (N := RNum mx) ->
  optimize_with c f cb fuel (sgd_vanilla_init (N := RNum mx) x0) tt alpha x0 = Return r ->
  2 * alpha * (sumR (paid mx (r_trace r)) - sumR (at_point mx f y 0 (r_trace r))) <=
    sqdist x0 y - sqdist (r_x r) y + alpha * alpha * sumR (map sqn (batch_grads mx (r_trace r))).
Proof. exact sgd_regret. Qed.
Print Assumptions C71_sgd_regret.

(** When [f] is a sum of functions whose total [Phi] does not depend on the order, and the
    run makes [p] whole passes, the objectives of the passes add up to at most
    p Phi(y) + |x0 - y|^2 / (2 step) + step/2 * (sum of the squared gradients). *)
Theorem C71_sgd_passes :
  forall (mx : R) n alpha f (cb : Callbacks (RNum mx) (list R) (list R)) (c : Cfg (RNum mx) (list R) (list R) (list unit) unit)
    (x0 : list R) fuel (r : res (RNum mx) (list R) (list R) (list unit) unit) y term Phi p,
  0 < alpha -> convex_batches mx f n -> (forall h g, cb_grad cb h g = g) -> length x0 = n -> length y = n ->
  (0 < sf_num f)%nat -> (0 < c_batch c)%nat -> c_up c = sgd_vanilla (N := RNum mx) -> c_dp c = sgd_no_decay (N := RNum mx) ->
  optimize_with c f cb fuel (sgd_vanilla_init (N := RNum mx) x0) tt alpha x0 = Return r ->
  sum_of_terms mx f term -> (forall j, sumR (map (fun i => term j i y) (seq 0 (sf_num f))) = Phi) ->
  visits (r_trace r) = (p * sf_num f)%nat ->
  2 * alpha * (sumR (paid mx (r_trace r)) - INR p * Phi) <= sqdist x0 y + alpha * alpha * sumR (map sqn (batch_grads mx (r_trace r))).
Proof.
  intros mx n alpha f cb c x0 fuel r y term Phi p A CV CB L0 Ly HN HB EU ED E ST TOT V.
  pose proof (C71_sgd_regret mx n alpha f cb c x0 fuel r y A CV CB L0 Ly HN HB EU ED E) as B.
  rewrite (at_point_visited mx f term y ST) in B. destruct (c01 c f cb x0 _ _ _ fuel HN HB r E) as [VS _]. rewrite VS, V in B.
  rewrite (passes_sum term y Phi (sf_num f) HN (c_shuffle c) TOT p) in B. pose proof (sqdist_nonneg (r_x r) y). lra.
Qed.
Print Assumptions C71_sgd_passes.

(** AdaGrad (NoDecay): as long as every evaluated point is within D of [y] in each
    coordinate, the regret is at most
      (D^2 / (2 step) + step) * sum over the coordinates of sqrt (sum of its squared gradients)
      + n D^2 epsilon / (2 step),
    so coordinates with small or rare gradients cost little. *)
Theorem C71_adagrad_regret :
  forall (mx : R) eps alpha D, 0 < eps -> 0 < alpha ->
  forall n f (cb : Callbacks (RNum mx) (list R) (list R)) (c : Cfg (RNum mx) (list R) (list R) (list R) unit)
    (x0 : list R) fuel (r : res (RNum mx) (list R) (list R) (list R) unit) y,
  convex_batches mx f n -> (forall h g, cb_grad cb h g = g) -> length x0 = n -> length y = n ->
  (0 < sf_num f)%nat -> (0 < c_batch c)%nat -> c_up c = sgd_adagrad (N := RNum mx) eps -> c_dp c = sgd_no_decay (N := RNum mx) ->
  optimize_with c f cb fuel (sgd_adagrad_init (N := RNum mx) x0) tt alpha x0 = Return r ->
  within D x0 y -> Forall (fun x => within D x y) (batch_points mx (r_trace r)) ->
  sumR (paid mx (r_trace r)) - sumR (at_point mx f y 0 (r_trace r)) <=
    (D * D / (2 * alpha) + alpha) * sumR (map sqrt (squares n (batch_grads mx (r_trace r)))) + INR n * (D * D * eps / (2 * alpha)).
Proof. exact adagrad_regret. Qed.
Print Assumptions C71_adagrad_regret.

(** The squares (x - i)^2/2, i = 0, 1, 2, meet the hypotheses; a run exists. *)
Definition sq3 (mx : R) : SepFun (RNum mx) (list R) (list R) := @Build_SepFun (RNum mx) (list R) (list R)
  3
  (fun _ x b k => sumR (map (fun i => (nth 0 x 0 - INR i) * (nth 0 x 0 - INR i) / 2) (seq b k)))
  (fun _ x b k => (sumR (map (fun i => (nth 0 x 0 - INR i) * (nth 0 x 0 - INR i) / 2) (seq b k)),
                                 [sumR (map (fun i => nth 0 x 0 - INR i) (seq b k))])).
Example C71_example : forall (mx : R),
  convex_batches mx (sq3 mx) 1 /\
  sum_of_terms mx (sq3 mx) (fun _ i x => (nth 0 x 0 - INR i) * (nth 0 x 0 - INR i) / 2) /\
  exists r, optimize_with (@Build_Cfg (RNum mx) (list R) (list R) (list unit) unit 2 6 0 true false
      (sgd_vanilla (N := RNum mx)) (sgd_no_decay (N := RNum mx))) (sq3 mx)
      {| cb_stop := fun _ => false; cb_grad := fun _ g => g |} 100 [tt] tt (1 / 10) [5] = Return r.
Proof.
  intros mx. split; [|split].
  - intros j b k [|x [|]] [|y [|]] Lx Ly; try discriminate. split; [reflexivity|]. unfold batch_value. cbn [sq3 sf_evalgrad fst snd dotR nth].
    revert b. induction k as [|k IH]; intros b; cbn [seq map sumR]; [lra|]. specialize (IH (S b)). pose proof (Rle_0_sqr (y - x)) as SQ. unfold Rsqr in SQ. lra.
  - intros j b k x. reflexivity.
  - apply c02_terminates; cbn; try lia.
Qed.
