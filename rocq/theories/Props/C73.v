(** C73: the adaptive methods take bounded steps, whatever the gradients. *)
From Coq Require Import List Arith Reals Lra Lia.
From Verif.Base Require Import Num Instances Size.
From Verif.Model Require Import Updates Sgd SgdPolicies.
From Verif.Spec Require Import UpdatesSpec StepBoundSpec SgdSpec.
From Verif.Proof Require Import AdamProof StepBoundProof UpdatesProof StepBoundCounter.
Import ListNotations.
Local Open Scope R_scope.

Theorem C73_adam : forall mx eps b1 b2, 0 <= b1 <= b2 -> b2 < 1 -> 0 < eps ->
  moves_at_most mx (adam_up (N := RNum mx) pow eps b1 b2) adam_init (sqrt ((1 - b1) / (1 - b2))).
Proof. exact adam_moves. Qed.
Theorem C73_amsgrad : forall mx eps b1 b2, 0 <= b1 <= b2 -> b2 < 1 -> 0 < eps ->
  moves_at_most mx (amsgrad_up (N := RNum mx) pow eps b1 b2) adam_init (sqrt ((1 - b1) / (1 - b2))).
Proof. exact amsgrad_moves. Qed.
Theorem C73_optimistic_adam : forall mx eps b1 b2, 0 <= b1 <= b2 -> b2 < 1 -> 0 < eps ->
  moves_at_most mx (optimistic_up (N := RNum mx) pow eps b1 b2) adam_init (3 * sqrt ((1 - b1) / (1 - b2))).
Proof. exact optimistic_moves. Qed.
Theorem C73_qhadam : forall mx eps b1 b2, 0 <= b1 <= b2 -> b2 < 1 -> 0 < eps ->
  forall v1 v2, 0 <= v1 <= 1 -> 0 < v2 < 1 ->
  moves_at_most mx (qhadam_up (N := RNum mx) pow eps b1 b2 v1 v2) adam_init
    (sqrt (Rmax ((1 - v1) / (1 - v2)) (v1 * ((1 - b1) / (1 - b2)) / v2))).
Proof. exact qhadam_moves. Qed.
(** The power function used by NAdam and NadaMax is any with values in [0, 1] at the base 0.96. *)
Theorem C73_nadam : forall mx eps b1 b2 (rpw : R -> R -> R), 0 <= b1 <= b2 -> b2 < 1 -> 0 < eps ->
  forall sd, (forall t, 0 <= rpw (96 / 100) (INR t * sd) <= 1) ->
  moves_at_most mx (nadam_up (N := RNum mx) pow rpw eps b1 b2 sd) nadam_init
    (/ sqrt (1 - b2) + b1 / (1 - b1) * sqrt ((1 - b1) / (1 - b2))).
Proof. exact nadam_moves. Qed.
Theorem C73_nadamax : forall mx eps b1 b2 (rpw : R -> R -> R), 0 <= b1 < b2 -> b2 < 1 -> 0 < eps ->
  forall sd, (forall t, 0 <= rpw (96 / 100) (INR t * sd) <= 1) ->
  moves_at_most mx (nadamax_up (N := RNum mx) rpw eps b1 b2 sd) nadam_init (1 + b1 * (b2 / (b2 - b1))).
Proof. exact nadamax_moves. Qed.
Theorem C73_adamax : forall mx eps b1 b2, 0 <= b1 < b2 -> b2 < 1 -> 0 < eps ->
  moves_at_most mx (adamax_up (N := RNum mx) pow eps b1 b2) adam_init (b2 / (b2 - b1)).
Proof. exact adamax_moves. Qed.
Theorem C73_yogi : forall mx eps b1 b2, 0 <= b1 < b2 -> b2 < 1 -> 0 < eps ->
  moves_at_most mx (yogi_up (N := RNum mx) eps b1 b2) adam_init
    (sqrt (Rmax ((1 - b1) / (1 - b2)) ((1 - b1) / (b2 - b1)))).
Proof. exact yogi_moves. Qed.
Theorem C73_adagrad : forall mx eps, 0 < eps -> moves_at_most mx (adagrad_up (N := RNum mx) eps) 0 1.
Proof. exact adagrad_moves. Qed.
Theorem C73_rmsprop : forall mx eps alpha, 0 < eps -> 0 <= alpha < 1 ->
  moves_at_most mx (rmsprop_up (N := RNum mx) eps alpha) 0 (/ sqrt (1 - alpha)).
Proof. exact rmsprop_moves. Qed.
(** AdaSqrt's bound grows with the root of the number of updates. *)
Theorem C73_adasqrt : forall mx eps (x : R) (l : list (R * R)) (h g : R), 0 < eps -> 0 <= h ->
  Rabs (snd (run (N := RNum mx) (adasqrt_up (N := RNum mx) eps) (0, O) x (l ++ [(h, g)]))
        - snd (run (N := RNum mx) (adasqrt_up (N := RNum mx) eps) (0, O) x l))
  <= sqrt (INR (S (length l))) / (2 * sqrt eps) * h.
Proof. exact adasqrt_moves. Qed.
(** WNGrad moves no coordinate by more than one half, whatever the step size. *)
Theorem C73_wngrad : forall (mx : R) (norm : list R -> R) b x h (g : list R),
  0 < b -> 0 <= h -> length g = length x -> (forall v, In v g -> Rabs v <= norm g) ->
  forall j xj xj', nth_error x j = Some xj -> nth_error (snd (wngrad_up (N := RNum mx) norm b x h g)) j = Some xj' ->
  Rabs (xj' - xj) <= 1 / 2.
Proof. exact wngrad_moves. Qed.
Print Assumptions C73_adam.
Print Assumptions C73_amsgrad.
Print Assumptions C73_optimistic_adam.
Print Assumptions C73_qhadam.
Print Assumptions C73_nadam.
Print Assumptions C73_nadamax.
Print Assumptions C73_adamax.
Print Assumptions C73_yogi.
Print Assumptions C73_adagrad.
Print Assumptions C73_rmsprop.
Print Assumptions C73_adasqrt.
Print Assumptions C73_wngrad.

(** A whole run with a constant step size: successive iterates stay close, and the result is
    within C times the step size times the number of updates of the start. *)
Theorem C73_run : forall (mx : R) (S D : Type) (up : S -> R -> R -> R -> S * R) (s0 : S) (C : R)
    (c : Cfg (RNum mx) (list R) (list R) (list S) D) (f : SepFun (RNum mx) (list R) (list R))
    (cb : Callbacks (RNum mx) (list R) (list R)) (x0 : list R) (d0 : D) (step : R) (fuel : nat)
    (r : res (RNum mx) (list R) (list R) (list S) D),
  moves_at_most mx up s0 C -> 0 <= C -> 0 <= step ->
  c_up c = vec_up (N := RNum mx) up -> (forall d x s g, snd (c_dp c d x s g) = s) ->
  (forall j x b k, length x = length x0 -> length (snd (sf_evalgrad f j x b k)) = length x0) ->
  (forall h g, length g = length x0 -> length (cb_grad cb h g) = length x0) ->
  (0 < sf_num f)%nat -> (0 < c_batch c)%nat ->
  optimize_with c f cb fuel (repeat s0 (length x0)) d0 step x0 = Return r ->
  let xs := stepped (r_trace r) in
  close_by (C * step) (x0 :: xs) /\ r_x r = last xs x0 /\
  forall i, Rabs (nth i (r_x r) 0 - nth i x0 0) <= C * step * INR (length xs).
Proof. exact sgd_close. Qed.
Print Assumptions C73_run.

(* Adam with the default decay rates on a sum of three squares *)
Example C73_example : forall (mx : R), exists r,
  optimize_with (@Build_Cfg (RNum mx) (list R) (list R) (list (@adam_st (RNum mx))) unit 2 6 0 true false
      (vec_up (N := RNum mx) (adam_up (N := RNum mx) pow (1 / 100000000) (9 / 10) (999 / 1000))) (sgd_no_decay (N := RNum mx))) (squares3 mx)
      {| cb_stop := fun _ => false; cb_grad := fun _ g => g |} 100 [adam_init] tt (1 / 10) [5] = Return r /\
  forall i, Rabs (nth i (r_x r) 0 - nth i [5] 0) <= 10 * (1 / 10) * INR (length (stepped (r_trace r))).
Proof. exact adam_sq3. Qed.

(** Adam can move a coordinate by more than the step size. *)
Theorem C73_within_step_refuted :
  ~ (forall mx eps b1 b2, 0 <= b1 <= b2 -> b2 < 1 -> 0 < eps ->
     moves_at_most mx (adam_up (N := RNum mx) pow eps b1 b2) adam_init 1).
Proof. exact adam_exceeds. Qed.
(** Adam with the second decay rate below the first takes steps that no multiple of the step
    size bounds. *)
Theorem C73_any_rates_refuted :
  ~ (forall mx eps b1 b2, 0 <= b1 < 1 -> 0 <= b2 < 1 -> 0 < eps ->
     exists C, moves_at_most mx (adam_up (N := RNum mx) pow eps b1 b2) adam_init C).
Proof. exact adam_unbounded. Qed.
(** AdaBelief divides by the deviation from the predicted gradient, and no multiple of the step
    size bounds its steps. *)
Theorem C73_adabelief_refuted :
  ~ (forall mx eps b1 b2, 0 <= b1 < 1 -> 0 <= b2 < 1 -> 0 < eps ->
     exists C, moves_at_most mx (adabelief_up (N := RNum mx) pow eps b1 b2) adam_init C).
Proof. exact adabelief_unbounded. Qed.
Print Assumptions C73_within_step_refuted.
Print Assumptions C73_any_rates_refuted.
Print Assumptions C73_adabelief_refuted.
