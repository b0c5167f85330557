(** C83: SVRG and SARAH converge linearly, whatever the order of the batches. *)
From Coq Require Import List Arith Bool Reals Lra Lia.
From Verif.Base Require Import Num Vec Instances.
From Verif.Model Require Import Common VarRed SVRG Sarah.
From Verif.Spec Require Import Gradient ConvergeSpec VarRedSpec SarahSpec VrRateSpec.
From Verif.Proof Require Import SVRGProof SarahProof VrRate VrRate2 VrRateEx.
Import ListNotations.
Local Open Scope R_scope.

(** For every sum of functions whose gradients are Lipschitz with constant L and whose average F is
    strongly convex with constant mu and least at y, every order the shuffles give the functions,
    every batch size, tolerance, iteration limit and starting point, and every callback that leaves
    the gradients alone (it may stop the run anywhere): if 4 * innerIterations * eta * L^2 <= mu,
    then every step SVRG reported has brought the iterate closer to y by a factor 1 - eta mu / 4. *)
Theorem C83_svrg : forall mx p L mu eta (f : VFun (RNum mx)) cb (gr : nat -> list R -> list R) (F : list R -> R) (y : list R)
    b maxIterations (tol : RNum mx) shuffle exact fuel inner (x : list R) r,
  shuffled_sum mx p f gr -> each_smooth p (vf_num f) L gr ->
  smooth_on (space p) L F (avg_grad p (vf_num f) gr) -> strongly_convex_on (space p) mu F ->
  0 < mu <= L -> 0 < eta -> length y = p -> (forall z, length z = p -> F y <= F z) ->
  (0 < vf_num f)%nat -> (0 < b)%nat -> watching mx cb -> length x = p ->
  INR (match inner with O => vf_num f | _ => inner end) * (4 * eta * (L * L)) <= mu ->
  svrg f cb b maxIterations tol shuffle exact no_decay fuel inner tt eta x = Ret r ->
  sqdist (vr_x r) y <= ((1 - eta * mu / 4) ^ reported mx (vr_tr r)) ^ 2 * sqdist x y.
Proof. intros. eapply svrg_rate; eassumption. Qed.
Print Assumptions C83_svrg.

(** SARAH and SARAH+, whatever ends the inner loop early; a round makes one more move than the
    inner steps, so it counts in the condition. *)
Theorem C83_sarah : forall mx p L mu eta (f : VFun (RNum mx)) cb (gr : nat -> list R -> list R) (F : list R -> R) (y : list R)
    b norm early maxIterations (tol : RNum mx) shuffle exact fuel inner (x : list R) r,
  shuffled_sum mx p f gr -> each_smooth p (vf_num f) L gr ->
  smooth_on (space p) L F (avg_grad p (vf_num f) gr) -> strongly_convex_on (space p) mu F ->
  0 < mu <= L -> 0 < eta -> length y = p -> (forall z, length z = p -> F y <= F z) ->
  (0 < vf_num f)%nat -> (0 < b)%nat -> watching mx cb -> length x = p ->
  INR (S (match inner with O => vf_num f | _ => inner end)) * (4 * eta * (L * L)) <= mu ->
  sarah (N := RNum mx) f cb b maxIterations tol shuffle exact eta norm early fuel inner x = Ret r ->
  sqdist (vr_x r) y <= ((1 - eta * mu / 4) ^ reported mx (vr_tr r)) ^ 2 * sqdist x y.
Proof. intros. eapply sarah_rate; eassumption. Qed.
Print Assumptions C83_sarah.

(** The hypotheses can be met: x^2/2 and 3(x-2)^2/2, which every other shuffle exchanges, with
    L = 3, mu = 2, least average at 3/2, eta = 1/54; and the runs exist. *)
Example C83_case : forall mx ev cb, watching mx cb ->
  shuffled_sum mx 1 (two_fun mx ev) two_grad /\ each_smooth 1 2 3 two_grad /\
  smooth_on (space 1) 3 two_avg (avg_grad 1 2 two_grad) /\ strongly_convex_on (space 1) 2 two_avg /\
  (forall z, length z = 1%nat -> two_avg [3 / 2] <= two_avg z) /\
  INR 3 * (4 * (/ 54) * (3 * 3)) <= 2 /\
  (exists r, svrg (two_fun mx ev) cb 1 7 (0 : RNum mx) true true no_decay 100 0 tt (/ 54 : RNum mx) [10 : RNum mx] = Ret r /\
             sqdist (vr_x r) [3 / 2] <= ((1 - / 54 * 2 / 4) ^ reported mx (vr_tr r)) ^ 2 * (289 / 4)) /\
  (exists r, sarah (two_fun mx ev) cb 1 7 (0 : RNum mx) true true (/ 54 : RNum mx) (fun _ => (1 : RNum mx)) sarah_early 100 0 [10 : RNum mx] = Ret r /\
             sqdist (vr_x r) [3 / 2] <= ((1 - / 54 * 2 / 4) ^ reported mx (vr_tr r)) ^ 2 * (289 / 4)).
Proof.
  intros mx ev cb W. split; [apply two_sum|]. split; [apply two_smooth|]. split; [apply two_avg_smooth|]. split; [apply two_avg_strong|].
  split; [apply two_avg_min|]. split; [cbn; lra|].
  assert (E : 289 / 4 = sqdist [10] [3 / 2]) by (cbn; lra). rewrite E. split.
  - assert (X : exists r, svrg (two_fun mx ev) cb 1 7 (0 : RNum mx) true true no_decay 100 0 tt (/ 54 : RNum mx) [10 : RNum mx] = Ret r) by (apply svrg_returns; cbn; lia).
    destruct X as [r H].
    exists r. split; [exact H|].
    refine (C83_svrg mx 1 3 2 (/ 54) _ cb two_grad two_avg [3 / 2] _ _ _ _ _ _ _ _ r (two_sum mx ev) two_smooth two_avg_smooth two_avg_strong _ _ eq_refl two_avg_min _ _ W (eq_refl : length [10] = 1%nat) _ H); cbn; try lra; lia.
  - assert (X : exists r, sarah (two_fun mx ev) cb 1 7 (0 : RNum mx) true true (/ 54 : RNum mx) (fun _ => (1 : RNum mx)) sarah_early 100 0 [10 : RNum mx] = Ret r) by (apply sarah_returns; cbn; lia).
    destruct X as [r H].
    exists r. split; [exact H|].
    refine (C83_sarah mx 1 3 2 (/ 54) _ cb two_grad two_avg [3 / 2] _ _ _ _ _ _ _ _ _ _ r (two_sum mx ev) two_smooth two_avg_smooth two_avg_strong _ _ eq_refl two_avg_min _ _ W (eq_refl : length [10] = 1%nat) _ H); cbn; try lra; lia.
Qed.
