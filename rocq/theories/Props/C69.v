(** C69: how good gradient descent's answers are on smooth functions. *)
From Coq Require Import List Arith Bool Reals Lra Lia.
From Verif.Base Require Import Num Vec Instances.
From Verif.Model Require Import Common GradientDescent.
From Verif.Spec Require Import CommonSpec GDSpec Gradient FWSpec HeardSpec ConvergeSpec.
From Verif.Proof Require Import GDProof SmoothProof GDConverge.
Import ListNotations.
Local Open Scope R_scope.

(** [plain cb]: the callbacks do not change gradients (they may ask to stop at any time).
    [f] has a gradient [grad], Lipschitz with constant L, and 0 < step <= 1/L. *)
Definition plain (mx : R) (cb : CB (RNum mx) (list R) (list R)) : Prop := forall h x v g, cs_grad cb h x v g = g.

(** Each step lowers the objective by at least step/2 |gradient|^2, and the point returned
    is no worse than the start. *)
Theorem C69_descends :
  forall (mx : R) n L alpha f grad maxIterations tolerance cb fuel x0 r,
  smooth_on (space n) L f grad -> 0 <= L -> 0 < alpha -> alpha * L <= 1 -> plain mx cb -> length x0 = n ->
  gd (N := RNum mx) alpha maxIterations tolerance (fun x => (f x, grad x)) cb fuel x0 = Some r ->
  (forall k e e', nth_error (evalgs (o_tr r)) k = Some e -> nth_error (evalgs (o_tr r)) (S k) = Some e' ->
     e_val (N := RNum mx) e' <= e_val (N := RNum mx) e - alpha / 2 * sqn (e_grad (N := RNum mx) e)) /\
  f (o_x r) <= f x0.
Proof. split; [eapply gd_descends|eapply gd_final_below]; eassumption. Qed.
Print Assumptions C69_descends.

(** With f bounded below by [low], the squared lengths of all the gradients computed add up
    to at most 2 (f x0 - low) / step, whatever the number of iterations. *)
Theorem C69_gradients_vanish :
  forall (mx : R) n L alpha f grad maxIterations tolerance cb fuel x0 r low,
  smooth_on (space n) L f grad -> 0 <= L -> 0 < alpha -> alpha * L <= 1 -> plain mx cb -> length x0 = n ->
  gd (N := RNum mx) alpha maxIterations tolerance (fun x => (f x, grad x)) cb fuel x0 = Some r ->
  (forall x, length x = n -> low <= f x) ->
  alpha * sumR (map (fun e => sqn (e_grad (N := RNum mx) e)) (evalgs (o_tr r))) <= 2 * (f x0 - low).
Proof. intros. eapply gd_gradients; eassumption. Qed.
Print Assumptions C69_gradients_vanish.

(** A stop by the tolerance after two or more evaluations certifies a small gradient. *)
Theorem C69_tolerance_means_small_gradient :
  forall (mx : R) n L alpha f grad maxIterations tolerance cb fuel x0 r before e e',
  smooth_on (space n) L f grad -> 0 <= L -> 0 < alpha -> alpha * L <= 1 -> plain mx cb -> length x0 = n ->
  gd (N := RNum mx) alpha maxIterations tolerance (fun x => (f x, grad x)) cb fuel x0 = Some r ->
  evalgs (o_tr r) = before ++ [e; e'] ->
  Rabs (e_val (N := RNum mx) e - e_val (N := RNum mx) e') < tolerance ->
  alpha * sqn (e_grad (N := RNum mx) e) < 2 * tolerance.
Proof.
  intros mx n L alpha f grad maxIterations tolerance cb fuel x0 r before e e' H1 H2 H3 H4 H5 H6 H7 H8 H9.
  eapply gd_tolerance; try eassumption. unfold stop_test. cbn. destruct (Rltb_spec (Rabs (e_val (N := RNum mx) e - e_val (N := RNum mx) e')) tolerance); [reflexivity|contradiction].
Qed.
Print Assumptions C69_tolerance_means_small_gradient.

(** With a positive tolerance the run makes at most 2 + (f x0 - low) / tolerance
    evaluations, even when maxIterations is 0 (no limit). *)
Theorem C69_evaluations_bounded :
  forall (mx : R) n L alpha f grad maxIterations tolerance cb fuel x0 r low,
  smooth_on (space n) L f grad -> 0 <= L -> 0 < alpha -> alpha * L <= 1 -> plain mx cb -> length x0 = n ->
  gd (N := RNum mx) alpha maxIterations tolerance (fun x => (f x, grad x)) cb fuel x0 = Some r ->
  0 < tolerance -> (forall x, length x = n -> low <= f x) ->
  INR (length (evalgs (o_tr r))) * tolerance <= f x0 - low + 2 * tolerance.
Proof. intros mx n L alpha; intros. eapply gd_count with (n := n) (L := L) (alpha := alpha); eassumption. Qed.
Print Assumptions C69_evaluations_bounded.

(** Convex functions: compared with any point [y], the gap after k steps is at most
    |x0 - y|^2 / (2 step k). *)
Theorem C69_convex_rate :
  forall (mx : R) n L alpha f grad maxIterations tolerance cb fuel x0 r y,
  smooth_on (space n) L f grad -> 0 <= L -> 0 < alpha -> alpha * L <= 1 -> plain mx cb -> length x0 = n ->
  gd (N := RNum mx) alpha maxIterations tolerance (fun x => (f x, grad x)) cb fuel x0 = Some r ->
  convex_on (space n) f -> length y = n ->
  (forall k e, nth_error (evalgs (o_tr r)) k = Some e -> INR k * (2 * alpha * (e_val (N := RNum mx) e - f y)) <= sqdist x0 y) /\
  INR (length (steps_to (o_tr r))) * (2 * alpha * (f (o_x r) - f y)) <= sqdist x0 y.
Proof. intros. eapply gd_rate; eassumption. Qed.
Print Assumptions C69_convex_rate.

(** ... and no step leads away from a minimiser. *)
Theorem C69_convex_approaches :
  forall (mx : R) n L alpha f grad maxIterations tolerance cb fuel x0 r y,
  smooth_on (space n) L f grad -> 0 <= L -> 0 < alpha -> alpha * L <= 1 -> plain mx cb -> length x0 = n ->
  gd (N := RNum mx) alpha maxIterations tolerance (fun x => (f x, grad x)) cb fuel x0 = Some r ->
  convex_on (space n) f -> length y = n -> (forall z, length z = n -> f y <= f z) ->
  (forall k e e', nth_error (evalgs (o_tr r)) k = Some e -> nth_error (evalgs (o_tr r)) (S k) = Some e' ->
     sqdist (e_at (N := RNum mx) e') y <= sqdist (e_at (N := RNum mx) e) y) /\
  sqdist (o_x r) y <= sqdist x0 y.
Proof. intros. eapply gd_fejer; eassumption. Qed.
Print Assumptions C69_convex_approaches.

(** Strongly convex functions: the squared distance to the minimiser shrinks by the factor
    1 - step mu in every step. *)
Theorem C69_linear_rate :
  forall (mx : R) n L alpha f grad maxIterations tolerance cb fuel x0 r mu y,
  smooth_on (space n) L f grad -> 0 <= L -> 0 < alpha -> alpha * L <= 1 -> plain mx cb -> length x0 = n ->
  gd (N := RNum mx) alpha maxIterations tolerance (fun x => (f x, grad x)) cb fuel x0 = Some r ->
  0 <= mu -> alpha * mu <= 1 -> strongly_convex_on (space n) mu f -> length y = n -> (forall z, length z = n -> f y <= f z) ->
  (forall k e, nth_error (evalgs (o_tr r)) k = Some e -> sqdist (e_at (N := RNum mx) e) y <= (1 - alpha * mu) ^ k * sqdist x0 y) /\
  sqdist (o_x r) y <= (1 - alpha * mu) ^ length (steps_to (o_tr r)) * sqdist x0 y.
Proof. intros mx n L alpha; intros. eapply gd_linear with (n := n) (L := L) (alpha := alpha); eassumption. Qed.
Print Assumptions C69_linear_rate.

(** The bound on the step matters: with step 3 on x^2/2 (L = 1) the answer is worse than
    the start. *)
Theorem C69_any_step_size_descends_refuted :
  exists mx alpha r, smooth_on (space 1) 1 (fun x => 1 / 2 * sqn x) (map (Rmult 1)) /\ 0 < alpha /\
    gd (N := RNum mx) alpha 2 0 (fun x => (1 / 2 * sqn x, map (Rmult 1) x)) {| cs_stop := fun _ => false; cs_grad := fun _ _ _ g => g |} 2 [1] = Some r /\
    1 / 2 * sqn (o_x r) > 1 / 2 * sqn [1].
Proof.
  exists 0, 3. eexists. split; [apply bowl_smooth|]. split; [lra|]. split.
  - unfold gd. cbn [gd_loop bound Nat.eqb negb andb orb nisnan nisinf nlt nabs RNum cs_grad cs_stop].
    destruct (Rltb_spec (Rabs (nsub (n := RNum 0) (nmax (n := RNum 0)) (1 / 2 * sqn [1]))) 0) as [H|H]; [pose proof (Rabs_pos (nsub (n := RNum 0) (nmax (n := RNum 0)) (1 / 2 * sqn [1]))); lra|].
    reflexivity.
  - cbn. lra.
Qed.
Print Assumptions C69_any_step_size_descends_refuted.

(** mu/2 |x|^2 in any dimension meets the hypotheses of all the theorems, with any mu > 0,
    step 1/mu, a positive tolerance and a run that exists. *)
Example C69_example :
  forall (mx : R) n mu x0, 0 < mu -> length x0 = n ->
  let f := fun x => mu / 2 * sqn x in let grad := map (Rmult mu) in
  let cb := {| cs_stop := fun _ => false; cs_grad := fun _ _ _ g => g |} : CB (RNum mx) (list R) (list R) in
  smooth_on (space n) mu f grad /\ / mu * mu <= 1 /\ plain mx cb /\ convex_on (space n) f /\ strongly_convex_on (space n) mu f /\
  (forall z, length z = n -> f (repeat 0 n) <= f z) /\ (forall x, length x = n -> 0 <= f x) /\
  exists r, gd (N := RNum mx) (/ mu) 1000 (1 / 100) (fun x => (f x, grad x)) cb 1000 x0 = Some r.
Proof.
  intros mx n mu x0 M X f grad cb. split; [|split; [|split; [|split; [|split; [|split; [|split]]]]]].
  - apply bowl_smooth.
  - rewrite Rinv_l by lra. lra.
  - intros h x v g. reflexivity.
  - apply bowl_convex. lra.
  - apply bowl_strong.
  - intros z _. unfold f. replace (sqn (repeat 0 n)) with 0 by (clear; unfold sqn; induction n as [|n IH]; cbn; lra).
    pose proof (sqn_nonneg z). nra.
  - intros x _. unfold f. pose proof (sqn_nonneg x). nra.
  - apply gd_terminates. apply le_n.
Qed.
