(** C48: the gradients of the test problems. *)
From Coq Require Import List Arith Reals Lra Lia Permutation.
From Verif.Spec Require Import Gradient.
From Verif.Model Require Import Problems ProblemsN.
From Verif.Proof Require Import ProblemsGrad ProblemsNGrad LogisticProof.
Import ListNotations.
Local Open Scope R_scope.

(** The problems of two, three or four variables whose Evaluate is differentiable everywhere:
    at every point, Gradient is the gradient of Evaluate. *)
Theorem C48_two_variables : forall x, length x = 2%nat ->
  gradient_at beale_evaluate x (beale_gradient x) /\
  gradient_at booth_evaluate x (booth_gradient x) /\
  gradient_at easom_evaluate x (easom_gradient x) /\
  gradient_at goldstein_price_evaluate x (goldstein_price_gradient x) /\
  gradient_at himmelblau_evaluate x (himmelblau_gradient x) /\
  gradient_at levy_n13_evaluate x (levy_n13_gradient x) /\
  gradient_at mc_cormick_evaluate x (mc_cormick_gradient x) /\
  gradient_at rosenbrock_evaluate x (rosenbrock_gradient x) /\
  gradient_at schaffer_n2_evaluate x (schaffer_n2_gradient x) /\
  gradient_at three_hump_camel_evaluate x (three_hump_camel_gradient x) /\
  gradient_at auglag_test_evaluate x (auglag_test_gradient x) /\
  forall i, gradient_at (auglag_test_constraint i) x (auglag_test_constraint_gradient i x).
Proof.
  exact (fun x L => conj (beale_gradient_ok x L) (conj (booth_gradient_ok x L) (conj (easom_gradient_ok x L)
    (conj (goldstein_price_gradient_ok x L) (conj (himmelblau_gradient_ok x L) (conj (levy_n13_gradient_ok x L)
    (conj (mc_cormick_gradient_ok x L) (conj (rosenbrock_gradient_ok x L) (conj (schaffer_n2_gradient_ok x L)
    (conj (three_hump_camel_gradient_ok x L) (conj (auglag_test_gradient_ok x L)
      (fun i => auglag_test_constraint_ok i x L)))))))))))).
Qed.
Print Assumptions C48_two_variables.
Theorem C48_more_variables :
  (forall x, length x = 4%nat -> gradient_at colville_evaluate x (colville_gradient x) /\ gradient_at wood_evaluate x (wood_gradient x)) /\
  (forall x, length x = 3%nat -> gradient_at gockenbach_evaluate x (gockenbach_gradient x) /\
     gradient_at (gockenbach_constraint 0) x (gockenbach_constraint_gradient 0 x)) /\
  (forall x, length x = 8%nat -> gradient_at rosenbrock_wood_evaluate x (rosenbrock_wood_gradient x)) /\
  (forall x, length x = 4%nat -> gradient_at sparse_full x (sparse_gradient x 0 4)) /\
  (forall x, gradient_at gd_test_evaluate x (gd_test_gradient x)).
Proof.
  exact (conj (fun x L => conj (colville_gradient_ok x L) (wood_gradient_ok x L))
    (conj (fun x L => conj (gockenbach_gradient_ok x L) (gockenbach_equality_ok x L))
    (conj rosenbrock_wood_gradient_ok (conj sparse_gradient_ok gd_test_gradient_ok)))).
Qed.
Print Assumptions C48_more_variables.
(** The problems of any number of variables, whatever order of the functions Shuffle() has
    left: the full gradient is that of the full objective. *)
Theorem C48_n_variables : forall n vo x, Permutation vo (seq 0 n) -> length x = n ->
  gradient_at (sphere_full n vo) x (sphere_full_gradient n vo x) /\
  gradient_at (styblinski_tang_full n vo) x (styblinski_tang_full_gradient n vo x) /\
  ((2 <= n)%nat -> gradient_at (gr_full n) x (gr_full_gradient n x)).
Proof. exact (fun n vo x P L => conj (sphere_gradient_ok n vo x P L) (conj (styblinski_tang_gradient_ok n vo x P L) (fun H => gr_gradient_ok n x H L))). Qed.
Print Assumptions C48_n_variables.
(** Logistic regression, with responses 0 or 1. *)
Theorem C48_logistic : forall lambda pts w, (0 < length w)%nat ->
  List.Forall (fun q => length (fst q) = (length w - 1)%nat /\ (snd q <= 1)%nat) pts ->
  gradient_at (lr_evaluate lambda pts) w (lr_gradient lambda pts w) /\
  (forall j, (j < length w)%nat -> lr_partial_gradient lambda pts w j = nth j (lr_gradient lambda pts w) 0) /\
  lr_evaluate_with_gradient lambda pts w = (lr_evaluate lambda pts w, lr_gradient lambda pts w).
Proof. exact (fun lambda pts w H F => conj (lr_gradient_ok lambda pts w H F) (conj (fun j => lr_partial_ok lambda pts w j) (lr_ewg lambda pts w))). Qed.
Print Assumptions C48_logistic.
(** The problems that are differentiable except on a small set. *)
Theorem C48_away_from_kinks :
  (forall x, length x = 2%nat -> co x 0 <> 0 \/ co x 1 <> 0 -> gradient_at drop_wave_evaluate x (drop_wave_gradient x)) /\
  (forall vo x, Permutation vo (seq 0 3) -> length x = 3%nat -> co x 0 <> 0 ->
     gradient_at (fun y => sgd_test_evaluate vo y 0 3) x (sgd_test_gradient vo x 0 3)) /\
  (forall n vo x, Permutation vo (seq 0 n) -> length x = n -> (forall p, (p < n)%nat -> co x p <> 0) ->
     gradient_at (schwefel_full n vo) x (schwefel_full_gradient n vo x)) /\
  (forall x, length x = 3%nat -> co x 2 - co x 0 ^ 2 < 0 -> gradient_at (gockenbach_constraint 1) x (gockenbach_constraint_gradient 1 x)).
Proof. exact (conj drop_wave_gradient_ok (conj sgd_test_gradient_ok (conj schwefel_gradient_ok gockenbach_inequality_ok))). Qed.
Print Assumptions C48_away_from_kinks.
(** Ackley and Bukin add a small epsilon to a denominator.  The gradient they return differs from
    a vector k that is the gradient of Evaluate by at most a multiple of epsilon. *)
Theorem C48_epsilon : forall c e x, 0 < e -> length x = 2%nat ->
  (co x 0 <> 0 \/ co x 1 <> 0 -> exists k, gradient_at (ackley_evaluate c) x k /\
     forall i, Rabs (co (ackley_gradient c e x) i - co k i) <= 4 * e / sqrt (5/10 * (co x 0 * co x 0 + co x 1 * co x 1))) /\
  (co x 0 <> -10 -> co x 1 <> 1/100 * co x 0 ^ 2 -> exists k, gradient_at bukin_evaluate x k /\
     forall i, Rabs (co (bukin_gradient e x) i - co k i) <= e / (100 * Rabs (co x 0 + 10))).
Proof.
  intros c e x He L. split; intros H.
  - exact (ex_intro _ _ (conj (ackley_gradient_ok c x L H) (fun i => ackley_epsilon c e x i He L H))).
  - exact (fun H1 => ex_intro _ _ (conj (bukin_gradient_ok x L H H1) (fun i => bukin_epsilon e x i He L H))).
Qed.
Print Assumptions C48_epsilon.

(** ---- gradients that are wrong ---- *)
(** MatyasFunction: wrong wherever the second coordinate is not 0 (the second summand of the
    first entry has the wrong coefficient). *)
Theorem C48_matyas_refuted : forall x, length x = 2%nat -> co x 1 <> 0 -> ~ gradient_at matyas_evaluate x (matyas_gradient x).
Proof. exact matyas_wrong. Qed.
Print Assumptions C48_matyas_refuted.
(** TestFuncFW: half the gradient, so wrong wherever the gradient is not 0. *)
Theorem C48_fw_test_refuted : forall x, length x = 3%nat ->
  gradient_at (fun y => 1/2 * fw_test_evaluate y) x (fw_test_gradient x) /\
  (co x 0 <> 1/10 -> ~ gradient_at fw_test_evaluate x (fw_test_gradient x)).
Proof. exact (fun x L => conj (fw_test_half x L) (fw_test_wrong x L)). Qed.
Print Assumptions C48_fw_test_refuted.
(** RastriginFunction: 10 n times the gradient. *)
Theorem C48_rastrigin_refuted : forall n vo x, Permutation vo (seq 0 n) -> length x = n ->
  (exists g, gradient_at (rastrigin_full n vo) x g /\ rastrigin_full_gradient n vo x = map (fun a => 10 * INR n * a) g) /\
  forall p, (p < n)%nat -> co x p + 10 * PI * sin (2 * PI * co x p) <> 0 ->
  ~ gradient_at (rastrigin_full n vo) x (rastrigin_full_gradient n vo x).
Proof.
  exact (fun n vo x P L => conj (ex_intro _ _ (conj (rastrigin_true n vo x P L) (rastrigin_scaled n vo x P))) (fun p H => rastrigin_wrong n vo x p P L H)).
Qed.
Print Assumptions C48_rastrigin_refuted.
(** EggholderFunction: wrong, for instance at (0, a - 47) for all a > 0 but those with
    cos(sqrt a) = 0, and 47. *)
Theorem C48_eggholder_refuted : forall a, 0 < a -> a <> 47 -> cos (sqrt a) <> 0 ->
  ~ gradient_at eggholder_evaluate [0; a - 47] (eggholder_gradient [0; a - 47]).
Proof. exact eggholder_wrong. Qed.
Print Assumptions C48_eggholder_refuted.
Example C48_eggholder_example : ~ gradient_at eggholder_evaluate [0; PI ^ 2 - 47] (eggholder_gradient [0; PI ^ 2 - 47]).
Proof. exact eggholder_wrong_pi. Qed.
(** GockenbachFunction, the inequality constraint: where it holds strictly, its value is the
    constant 0 nearby, but the gradient returned is not 0. *)
Theorem C48_gockenbach_refuted : forall x, length x = 3%nat -> 0 < co x 2 - co x 0 ^ 2 ->
  gradient_at (gockenbach_constraint 1) x [0; 0; 0] /\
  ~ gradient_at (gockenbach_constraint 1) x (gockenbach_constraint_gradient 1 x).
Proof. exact gockenbach_inequality_wrong. Qed.
Print Assumptions C48_gockenbach_refuted.

(** ---- examples ---- *)
Example C48_rosenbrock_example : gradient_at rosenbrock_evaluate [2; 5] [-798; 200].
Proof.
  replace [-798; 200] with (rosenbrock_gradient [2; 5]); [exact (rosenbrock_gradient_ok [2; 5] eq_refl)|].
  unfold rosenbrock_gradient, co. cbn [nth]. f_equal; [lra|f_equal; lra].
Qed.
Example C48_matyas_example : ~ gradient_at matyas_evaluate [1; 1] (matyas_gradient [1; 1]).
Proof. apply C48_matyas_refuted; [reflexivity|]. unfold co. cbn [nth]. lra. Qed.
Example C48_order_example : Permutation [2; 0; 1]%nat (seq 0 3).
Proof. apply (Permutation_cons_app [0; 1]%nat []). reflexivity. Qed.
Example C48_sphere_example : gradient_at (sphere_full 3 [2; 0; 1]%nat) [5; -1; 2] [10; -2; 4].
Proof.
  replace [10; -2; 4] with (sphere_full_gradient 3 [2; 0; 1]%nat [5; -1; 2]); [apply C48_n_variables; [exact C48_order_example|reflexivity]|].
  unfold sphere_full_gradient, sphere_gradient, batch_add, add_at, co. cbn. f_equal; [lra|f_equal; [lra|f_equal; lra]].
Qed.
(** one point per class, in one dimension: at w = 0 both sigmoids are 1/2 *)
Example C48_logistic_example : gradient_at (lr_evaluate 1 [([3], 1%nat); ([-1], 0%nat)]) [0; 0] [0; -2].
Proof.
  replace [0; -2] with (lr_gradient 1 [([3], 1%nat); ([-1], 0%nat)] [0; 0]).
  { apply C48_logistic; [cbn; lia|]. constructor; [cbn; lia|]. constructor; [cbn; lia|constructor]. }
  assert (S : forall q, sigm [0; 0] q = 1/2).
  { intros [[|a l] y]; unfold sigm, co; cbn [nth tl fst dot_].
    - rewrite Rplus_0_r, Ropp_0, exp_0. lra.
    - replace (- (0 + (0 * a + _))) with 0 by (destruct l; ring). rewrite exp_0. lra. }
  unfold lr_gradient, lr_slope. cbn [map fold_left length Nat.sub seq tl fst snd]. rewrite !S. unfold co. cbn [nth INR]. f_equal; [lra|f_equal; lra].
Qed.
