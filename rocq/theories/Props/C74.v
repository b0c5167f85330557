(** C74: softmax regression. *)
From Coq Require Import Arith List Reals Lra Lia.
From Verif.Model Require Import Softmax.
From Verif.Spec Require Import SoftmaxSpec.
From Verif.Proof Require Import SoftmaxModel SoftmaxCounter.
Import ListNotations.
Local Open Scope R_scope.

(** Evaluate() is the documented objective: the average of minus the log-probability of the
    label, plus the regularisation. *)
Theorem C74_evaluate : forall data rows cols labels classes lambda intercept par, (forall i, (i < cols)%nat -> (labels i < classes)%nat) ->
  evaluate (construct data rows cols labels classes lambda intercept) par
  = objective data rows labels classes lambda intercept 0 cols par.
Proof. exact evaluate_ok. Qed.
(** Each column of the probabilities is positive and sums to one. *)
Theorem C74_probabilities : forall data rows cols labels classes lambda intercept, (0 < classes)%nat ->
  forall par start i, let s := construct data rows cols labels classes lambda intercept in
  (forall k, 0 < probabilities s par start k i) /\ total classes (fun k => probabilities s par start k i) = 1.
Proof. intros. apply probabilities_ok. assumption. Qed.
Theorem C74_nonnegative : forall data rows cols labels classes lambda intercept, (0 < classes)%nat ->
  (forall i, (i < cols)%nat -> (labels i < classes)%nat) ->
  forall par, (0 < cols)%nat -> 0 <= lambda ->
  0 <= evaluate (construct data rows cols labels classes lambda intercept) par.
Proof. exact evaluate_nonneg. Qed.
(** Gradient() is the gradient of Evaluate(), with and without intercept. *)
Theorem C74_gradient : forall data rows cols labels classes lambda intercept, (0 < classes)%nat ->
  (forall i, (i < cols)%nat -> (labels i < classes)%nat) ->
  forall par k j, let s := construct data rows cols labels classes lambda intercept in
  (k < classes)%nat -> (j < num_features s)%nat ->
  derivable_pt_lim (fun v => evaluate s (put par k j v)) (par k j) (gradient s par k j).
Proof. intros. apply gradient_of_evaluate; assumption. Qed.
(** The gradient of a batch is the gradient of the documented objective of the batch. *)
Theorem C74_batch_gradient : forall data rows cols labels classes lambda intercept, (0 < classes)%nat ->
  forall par start b k j, let s := construct data rows cols labels classes lambda intercept in
  (k < classes)%nat -> (j < num_features s)%nat ->
  derivable_pt_lim (fun v => objective data rows labels classes lambda intercept start b (put par k j v)) (par k j)
    (gradient_batch s par start b k j).
Proof. intros. apply gradient_of_batch; assumption. Qed.
(** The objective is convex (strongly if lambda > 0): it lies above each of its linearisations. *)
Theorem C74_convex : forall data rows cols labels classes lambda intercept, (0 < classes)%nat ->
  (forall i, (i < cols)%nat -> (labels i < classes)%nat) ->
  forall par q, let s := construct data rows cols labels classes lambda intercept in (0 < cols)%nat ->
  evaluate s q >= evaluate s par + inner_product classes (num_features s) (gradient s par) (fun k j => q k j - par k j)
    + lambda / 2 * square_norm rows classes intercept (fun k j => q k j - par k j).
Proof. intros. apply evaluate_convex; assumption. Qed.
(** So parameters with zero gradient are a global minimum. *)
Theorem C74_stationary_is_minimum : forall data rows cols labels classes lambda intercept, (0 < classes)%nat ->
  (forall i, (i < cols)%nat -> (labels i < classes)%nat) ->
  forall par q, let s := construct data rows cols labels classes lambda intercept in (0 < cols)%nat -> 0 <= lambda ->
  (forall k j, (k < classes)%nat -> (j < num_features s)%nat -> gradient s par k j = 0) ->
  evaluate s par <= evaluate s q.
Proof. intros. apply stationary; assumption. Qed.
(** Without intercept PartialGradient(j) is column j of Gradient() and zero elsewhere. *)
Theorem C74_partial_gradient : forall data rows cols labels classes lambda intercept par j,
  let s := construct data rows cols labels classes lambda intercept in
  intercept = false -> (j < rows)%nat ->
  exists g, partial_gradient s par j = Some g /\ forall k c, g k c = if (c =? j)%nat then gradient s par k c else 0.
Proof. intros. apply partial_ok; assumption. Qed.
(** The documented objectives of the single samples are averages, so they add up to the number
    of samples times the full objective. *)
Theorem C74_singles : forall data rows cols labels classes lambda intercept,
  (forall i, (i < cols)%nat -> (labels i < classes)%nat) ->
  forall par, (0 < cols)%nat ->
  total cols (fun i => objective data rows labels classes lambda intercept i 1 par)
  = INR cols * evaluate (construct data rows cols labels classes lambda intercept) par.
Proof. exact singles. Qed.
(** Evaluate() of a batch throws unless the parameters are a square matrix. *)
Theorem C74_batch_evaluate_throws : forall data rows cols labels classes lambda intercept, (0 < classes)%nat ->
  forall par start b, let s := construct data rows cols labels classes lambda intercept in
  (forall i, (i < b)%nat -> (labels (start + i)%nat < classes)%nat) ->
  classes <> num_features s -> evaluate_batch s par start b = None.
Proof. exact batch_throws. Qed.
(** Shuffle() throws whenever there are more samples than classes, for every ordering. *)
Theorem C74_shuffle_throws : forall data rows cols labels classes lambda intercept, (0 < classes)%nat -> forall ord rev,
  (classes < cols)%nat -> (forall i, (i < cols)%nat -> (ord i < cols)%nat /\ rev (ord i) = i) ->
  shuffle (construct data rows cols labels classes lambda intercept) labels ord rev = None.
Proof. exact shuffle_throws. Qed.
(** With an intercept, PartialGradient() throws for the last feature. *)
Theorem C74_partial_last_throws : forall data rows cols labels classes lambda par, (0 < classes)%nat -> (0 < rows)%nat ->
  let s := construct data rows cols labels classes lambda true in
  partial_gradient s par (num_features s - 1) = None.
Proof. exact partial_last. Qed.
Print Assumptions C74_evaluate.
Print Assumptions C74_probabilities.
Print Assumptions C74_nonnegative.
Print Assumptions C74_gradient.
Print Assumptions C74_batch_gradient.
Print Assumptions C74_convex.
Print Assumptions C74_stationary_is_minimum.
Print Assumptions C74_partial_gradient.
Print Assumptions C74_singles.
Print Assumptions C74_batch_evaluate_throws.
Print Assumptions C74_shuffle_throws.
Print Assumptions C74_partial_last_throws.

(** Where it does not throw, Evaluate() of a batch adds up the entries of the product of the
    parameters with themselves instead of their squares: with parameters (0, 1; 0, 0) the
    regularisation is lost. *)
Theorem C74_batch_evaluate_refuted :
  ~ (forall data rows cols labels classes lambda intercept par start b v,
     (0 < classes)%nat -> (0 < b)%nat -> (forall i, (i < b)%nat -> (labels (start + i)%nat < classes)%nat) ->
     evaluate_batch (construct data rows cols labels classes lambda intercept) par start b = Some v ->
     v = objective data rows labels classes lambda intercept start b par).
Proof. exact batch_evaluate_wrong. Qed.
(** With an intercept, column j belongs to feature j - 1, but PartialGradient(j) uses feature j. *)
Theorem C74_partial_gradient_intercept_refuted :
  ~ (forall data rows cols labels classes lambda par j g k,
     let s := construct data rows cols labels classes lambda true in
     (0 < classes)%nat -> (0 < cols)%nat -> (k < classes)%nat -> (j < num_features s)%nat ->
     partial_gradient s par j = Some g -> g k j = gradient s par k j).
Proof. exact partial_wrong. Qed.
(** Shuffle() on as many samples as classes transposes the labels: after it the samples no longer
    go with their labels. *)
Theorem C74_shuffle_refuted :
  ~ (forall data rows cols labels classes lambda intercept ord rev s' k i,
     let s := construct data rows cols labels classes lambda intercept in
     (forall i, (i < cols)%nat -> (labels i < classes)%nat) ->
     (forall i, (i < cols)%nat -> (ord i < cols)%nat /\ rev (ord i) = i /\ (rev i < cols)%nat /\ ord (rev i) = i) ->
     shuffle s labels ord rev = Some s' -> (k < classes)%nat -> (i < cols)%nat ->
     sm_truth s' k i = sm_truth s k (ord i)).
Proof. exact shuffle_wrong. Qed.
Print Assumptions C74_batch_evaluate_refuted.
Print Assumptions C74_partial_gradient_intercept_refuted.
Print Assumptions C74_shuffle_refuted.

(* two samples with feature 1 and -1 and different labels: at zero parameters every class has
   probability 1/2, the objective is ln 2 and the gradient is not zero *)
Example C74_example :
  let s := construct (fun _ i => if (i =? 0)%nat then 1 else -1) 1 2 (fun i => i) 2 0 false in
  evaluate s (fun _ _ => 0) = ln 2 /\ gradient s (fun _ _ => 0) 0%nat 0%nat = - (1 / 2).
Proof. exact two_samples. Qed.
