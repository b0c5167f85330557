(** C84: settings that turn one optimizer into another. *)
From Coq Require Import List Arith Reals Lra Lia Permutation.
From Verif.Base Require Import Num Vec Instances.
From Verif.Model Require Import Common Sgd Updates SgdPolicies GradientDescent VarRed SVRG.
From Verif.Spec Require Import VrRateSpec SameSpec.
From Verif.Proof Require Import SVRGProof VrRateEx SameRun SameRun2 SameSvrg.
Import ListNotations.
Local Open Scope R_scope.

(** Momentum 0 and Nesterov momentum 0 are plain SGD: same value, same point, same trace, for every
    function, callbacks and settings, terminated or not. *)
Theorem C84_momentum : forall mx batch max (tol : RNum mx) shuffle exact f cb fuel (x : list (RNum mx)) (h : R),
  let run U up u := @optimize_with (RNum mx) _ _ U _ (sgd_with up batch max tol shuffle exact) f cb fuel u tt h x in
  same_run (run _ sgd_vanilla (sgd_vanilla_init x)) (run _ (sgd_momentum (N := RNum mx) 0) (sgd_velocity_init x)) /\
  same_run (run _ sgd_vanilla (sgd_vanilla_init x)) (run _ (sgd_nesterov (N := RNum mx) 0) (sgd_velocity_init x)).
Proof. intros. split; [apply momentum_zero|apply nesterov_zero]. Qed.
Print Assumptions C84_momentum.

(** Quasi-hyperbolic SGD with v = 0 or momentum = 0 is plain SGD; with v = 1 it is momentum SGD whose
    step size is (1 - momentum) times as large. *)
Theorem C84_qhsgd : forall mx batch max (tol : RNum mx) shuffle exact f cb fuel (x : list (RNum mx)) (mu : R),
  let run U up u h := @optimize_with (RNum mx) _ _ U _ (sgd_with up batch max tol shuffle exact) f cb fuel u tt h x in
  (forall (nu h : R), nu = 0 \/ mu = 0 ->
     same_run (run _ sgd_vanilla (sgd_vanilla_init x) h) (run _ (sgd_qh (N := RNum mx) mu nu) (sgd_velocity_init x) h)) /\
  (forall h : R, same_run (run _ (sgd_momentum (N := RNum mx) mu) (sgd_velocity_init x) ((1 - mu) * h))
                          (run _ (sgd_qh (N := RNum mx) mu 1) (sgd_velocity_init x) h)).
Proof. intros. split; intros; [apply qh_zero; assumption|apply qh_one]. Qed.
Print Assumptions C84_qhsgd.

(** With epsilon = 0, QHAdam(v1 = v2 = 1) is Adam, and Padam(partial = 1/2) is AMSGrad. *)
Theorem C84_adam : forall mx batch max (tol : RNum mx) shuffle exact f cb fuel (x : list (RNum mx)) (h b1 b2 : R),
  let run up := @optimize_with (RNum mx) _ _ _ _ (sgd_with (vec_up up) batch max tol shuffle exact) f cb fuel (map (fun _ => adam_init) x) tt h x in
  (0 < b2 < 1 -> same_run (run (adam_up (N := RNum mx) rpow 0 b1 b2)) (run (qhadam_up (N := RNum mx) rpow 0 b1 b2 1 1))) /\
  (forall (pw : R -> nat -> R) (rpw : R -> R -> R), (forall a, 0 <= a -> rpw a (1 / 2) = sqrt a) -> 0 <= b2 <= 1 ->
     same_run (run (amsgrad_up (N := RNum mx) pw 0 b1 b2)) (run (padam_up (N := RNum mx) pw rpw 0 b1 b2 (1 / 2)))).
Proof. intros. split; intros; [apply qhadam_adam; assumption|apply padam_amsgrad; assumption]. Qed.
Print Assumptions C84_adam.

(** What QHAdam(v1 = v2 = 1) and QHAdam(v1 = 0, v2 = 1) compute when epsilon is not 0: step t of Adam
    with epsilon * sqrt (1 - beta2^t), and step t of RMSProp with that epsilon and the step size
    multiplied by sqrt (1 - beta2^t). *)
Theorem C84_qhadam : forall mx (eps b1 b2 : R) (s : @adam_st (RNum mx)) (x h g : R), 0 < eps -> 0 < b2 < 1 ->
  let c := sqrt (1 - b2 ^ S (a_t s)) in
  snd (qhadam_up (N := RNum mx) rpow eps b1 b2 1 1 s x h g) = snd (adam_up (N := RNum mx) rpow (eps * c) b1 b2 s x h g) /\
  snd (qhadam_up (N := RNum mx) rpow eps b1 b2 0 1 s x h g) = snd (rmsprop_up (N := RNum mx) (eps * c) b2 (a_v s) x (h * c) g).
Proof. intros. split; [apply qhadam_scaled; assumption|apply qhadam_rms; assumption]. Qed.
Print Assumptions C84_qhadam.

(** The documentation says that QHAdam with v1 = v2 = 1 is Adam.  It is not: for every positive
    epsilon one step on a function with gradient 1 ends at different points. *)
Theorem C84_qhadam_adam_refuted : forall mx (eps b1 b2 h : R) (tol : RNum mx), 0 < eps -> 0 < b1 < 1 -> 0 < b2 < 1 -> 0 < h ->
  let run up := @optimize_with (RNum mx) _ _ _ _ (sgd_with (vec_up up) 1 1 tol false false) ramp mute 2 [adam_init] tt h [0] in
  ~ same_run (run (adam_up (N := RNum mx) rpow eps b1 b2)) (run (qhadam_up (N := RNum mx) rpow eps b1 b2 1 1)).
Proof. intros. apply qhadam_not_adam; assumption. Qed.
Print Assumptions C84_qhadam_adam_refuted.

(** The documentation says that QHAdam with v1 = 0 and v2 = 1 is RMSProp.  It is not, even with
    epsilon 0: RMSProp has no bias correction. *)
Theorem C84_qhadam_rmsprop_refuted : forall mx (b1 b2 h : R) (tol : RNum mx), 0 < b1 < 1 -> 0 < b2 < 1 -> 0 < h ->
  let run S (up : S -> R -> R -> R -> S * R) (s : S) :=
    @optimize_with (RNum mx) _ _ _ _ (sgd_with (vec_up (N := RNum mx) up) 1 1 tol false false) ramp mute 2 [s] tt h [0] in
  ~ same_run (run _ (rmsprop_up (N := RNum mx) 0 b2) 0) (run _ (qhadam_up (N := RNum mx) rpow 0 b1 b2 0 1) adam_init).
Proof. intros. apply qhadam_not_rms; assumption. Qed.
Print Assumptions C84_qhadam_rmsprop_refuted.

(** The documentation says that QHAdam with v1 = beta1 and v2 = 1 is Nadam.  It is not, even with
    epsilon 0, whatever Nadam's schedule decay: the first step of Nadam is longer. *)
Theorem C84_qhadam_nadam_refuted : forall mx (b1 b2 sd h : R) (tol : RNum mx), 0 < b1 < 1 -> 0 < b2 < 1 -> 0 <= sd -> 0 < h ->
  let run S (up : S -> R -> R -> R -> S * R) (s : S) :=
    @optimize_with (RNum mx) _ _ _ _ (sgd_with (vec_up (N := RNum mx) up) 1 1 tol false false) ramp mute 2 [s] tt h [0] in
  ~ same_run (run _ (nadam_up (N := RNum mx) rpow Rpower 0 b1 b2 sd) nadam_init) (run _ (qhadam_up (N := RNum mx) rpow 0 b1 b2 b1 1) adam_init).
Proof. intros. apply qhadam_not_nadam; assumption. Qed.
Print Assumptions C84_qhadam_nadam_refuted.

(** SGD whose batch holds every function is gradient descent: if the gradient of the whole batch is
    the full gradient F whatever the shuffles, k rounds of SGD and k rounds of gradient descent report
    the same points. *)
Theorem C84_full_batch_sgd : forall mx (f : SepFun (RNum mx) (list R) (list R)) (F : list R -> R * list R) batch shuffle exact (h : R),
  (0 < sf_num f)%nat -> (sf_num f <= batch)%nat -> (forall s x, sf_evalgrad f s x 0 (sf_num f) = F x) ->
  forall k fuel (x : list R), (0 < k)%nat -> (k < fuel)%nat -> (sf_num f < fuel)%nat ->
  exists r r',
    optimize_with (N := RNum mx) (sgd_with (N := RNum mx) sgd_vanilla batch (k * sf_num f) 0 shuffle exact) f mute fuel (sgd_vanilla_init (N := RNum mx) x) tt h x = Return r /\
    gd (N := RNum mx) h (S k) 0 F quiet fuel x = Some r' /\
    r_x r = o_x r' /\ points (r_trace r) = gd_points (o_tr r') /\ length (points (r_trace r)) = k.
Proof. intros. apply full_batch_sgd; assumption. Qed.
Print Assumptions C84_full_batch_sgd.

(** SVRG whose batch holds every function is gradient descent on the average: each point reported is
    the point before minus step size times the average gradient there, whatever the shuffles, the
    inner iterations and the reason for stopping; the last one is the result. *)
Theorem C84_full_batch_svrg : forall mx p (eta : R) (f : VFun (RNum mx)) cb gr b,
  shuffled_sum mx p f gr -> (forall i x, (i < vf_num f)%nat -> length x = p -> length (gr i x) = p) ->
  (0 < vf_num f)%nat -> (vf_num f <= b)%nat ->
  forall maxIterations (tol : RNum mx) shuffle exact fuel inner (x : list R) r, watching mx cb -> length x = p ->
  svrg f cb b maxIterations tol shuffle exact no_decay fuel inner tt eta x = Ret r ->
  vr_points (vr_tr r) =
    orbit_of (fun z => vsub (N := RNum mx) z (vscale (N := RNum mx) eta (avg_grad p (vf_num f) gr z))) (length (vr_points (vr_tr r))) x /\
  vr_x r = last (vr_points (vr_tr r)) x.
Proof. intros mx p eta f cb gr b SS GL Hn Hb maxIterations tol shuffle exact fuel inner x r W Lx R. exact (svrg_full mx p eta f cb gr b SS GL Hn Hb _ _ _ _ _ _ _ _ W Lx R). Qed.
Print Assumptions C84_full_batch_svrg.

(** One step of momentum 0, Nesterov momentum 0 and QHSGD on a function with gradient 1 is that of
    plain SGD; QHAdam(1, 1) and Adam agree there when epsilon is 0 and not otherwise. *)
Example C84_case : forall mx (h : R), 0 < h ->
  let run S (up : S -> R -> R -> R -> S * R) (s : S) :=
    @optimize_with (RNum mx) _ _ _ _ (sgd_with (vec_up (N := RNum mx) up) 1 1 (0 : RNum mx) false false) ramp mute 2 [s] tt h [0] in
  (exists r, run _ (vanilla_up (N := RNum mx)) tt = Return r /\ r_x r = [0 - h * 1]) /\
  (exists r, run _ (momentum_up (N := RNum mx) 0) 0 = Return r /\ r_x r = [0 - h * 1]) /\
  same_run (run _ (adam_up (N := RNum mx) rpow 0 (/ 2) (/ 2)) adam_init) (run _ (qhadam_up (N := RNum mx) rpow 0 (/ 2) (/ 2) 1 1) adam_init) /\
  ~ same_run (run _ (adam_up (N := RNum mx) rpow 1 (/ 2) (/ 2)) adam_init) (run _ (qhadam_up (N := RNum mx) rpow 1 (/ 2) (/ 2) 1 1) adam_init).
Proof.
  intros mx h H run. split; [exact (one_step mx (vanilla_up (N := RNum mx)) tt h 0)|]. split.
  - destruct (one_step mx (momentum_up (N := RNum mx) 0) 0 h 0) as (r & E & X). exists r. split; [exact E|]. rewrite X. cbn. f_equal. ring.
  - assert (HB : 0 < / 2 < 1) by lra. assert (H1 : 0 < 1) by lra. split; [exact (proj1 (C84_adam mx 1 1 0 false false ramp mute 2 [0] h (/ 2) (/ 2)) HB)|].
    exact (C84_qhadam_adam_refuted mx 1 (/ 2) (/ 2) h 0 H1 HB HB H).
Qed.
(** Three rounds of SGD with one batch, and of gradient descent, on a function with two parts. *)
Example C84_full_case : forall mx (h : R), let f := @ramp (RNum mx) in (sf_num f = 2)%nat /\ exists r r',
    optimize_with (N := RNum mx) (sgd_with (N := RNum mx) sgd_vanilla 5 (3 * sf_num f) 0 true true) f mute 10 (sgd_vanilla_init (N := RNum mx) [7]) tt h [7] = Return r /\
    gd (N := RNum mx) h 4 0 (fun _ : list R => (0, [1])) quiet 10 [7] = Some r' /\
    r_x r = o_x r' /\ points (r_trace r) = gd_points (o_tr r') /\ length (points (r_trace r)) = 3%nat.
Proof.
  intros mx h f. split; [reflexivity|].
  assert (A : (0 < sf_num f)%nat) by (cbn; lia). assert (B : (sf_num f <= 5)%nat) by (cbn; lia).
  assert (C : forall s x, sf_evalgrad f s x 0 (sf_num f) = (fun _ : list R => (0, [1])) x) by reflexivity.
  assert (D : (sf_num f < 10)%nat) by (cbn; lia). clearbody f.
  exact (C84_full_batch_sgd mx f (fun _ : list R => (0, [1])) 5 true true h A B C 3 10 [7] ltac:(lia) ltac:(lia) D).
Qed.
(** SVRG on two functions, shuffled, with batches of three. *)
Example C84_svrg_case : forall mx ev cb, watching mx cb ->
  exists r, svrg (two_fun mx ev) cb 3 7 (0 : RNum mx) true true no_decay 100 0 tt (/ 54 : RNum mx) [10 : RNum mx] = Ret r /\
    vr_x r = last (orbit_of (fun z => vsub (N := RNum mx) z (vscale (N := RNum mx) (/ 54) (avg_grad 1 2 two_grad z))) (length (vr_points (vr_tr r))) [10]) [10].
Proof.
  intros mx ev cb W.
  assert (X : exists r, svrg (two_fun mx ev) cb 3 7 (0 : RNum mx) true true no_decay 100 0 tt (/ 54 : RNum mx) [10 : RNum mx] = Ret r) by (apply svrg_returns; cbn; lia).
  destruct X as [r H]. exists r. split; [exact H|].
  assert (GL : forall i x, (i < vf_num (two_fun mx ev))%nat -> length x = 1%nat -> length (two_grad i x) = 1%nat).
  { intros i x I E. exact (proj1 (two_smooth i x x I E E)). }
  destruct (C84_full_batch_svrg mx 1 (/ 54) (two_fun mx ev) cb two_grad 3 (two_sum mx ev) GL ltac:(cbn; lia) ltac:(cbn; lia) 7 0 true true 100 0 [10] r W eq_refl H) as [A B].
  exact (eq_trans B (f_equal (fun l => last l [10]) A)).
Qed.
