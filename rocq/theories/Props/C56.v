(** C56: SPALeRA SGD. *)
From Coq Require Import List Arith Bool ZArith QArith Reals Lra Lia.
From Verif.Base Require Import Num Vec Size Instances QInst.
From Verif.Model Require Import Common VarRed Spalera.
From Verif.Spec Require Import SgdSpec VarRedSpec SpaleraSpec LpSpec.
From Verif.Proof Require Import SpaleraProof SpaleraReal.
Import ListNotations.
Local Open Scope nat_scope.

(** ---- the policy, over the real numbers ---- *)
(** For every sequence of calls of Update on a fresh policy whose threshold is not negative,
    with any step sizes, objectives, batch sizes and gradients: the iterate keeps its number of
    elements and the learning rates stay positive.  Each call does one of two things, decided by
    the Page-Hinkley test [changed] on the objectives since the last change.  If there is no
    change, it multiplies the rates by positive factors and moves to x - stepSize * rates % g.
    If there is, the call before it was a move, the iterate is what it was before that move,
    the rates are halved, and the answer is to go on exactly if they all exceed 1e-15. *)
Theorem C56_policy : forall mx npow tiny alpha epsilon rate lambda n p x l,
  (0 <= lambda)%R -> length x = p ->
  calls (N := RNum mx) npow exp tiny alpha epsilon rate lambda n x (fresh p) l ->
  forall before o after, l = before ++ o :: after ->
  let rates := s_lr (last (map o_pol before) (fresh (N := RNum mx) p)) in
  let h := (c_obj (o_in o), (INR (c_b (o_in o)) / INR n)%R) :: since mx lambda n before [] in
  (changed lambda h ->
     exists l' o', before = l' ++ [o'] /\
       ~ changed lambda ((c_obj (o_in o'), (INR (c_b (o_in o')) / INR n)%R) :: since mx lambda n l' []) /\
       o_to o = o_x o' /\ s_lr (o_pol o) = map (fun a => a / 2)%R rates /\
       (o_ok o = true <-> Forall (fun a => (tiny < a)%R) (s_lr (o_pol o)))) /\
  (~ changed lambda h ->
     exists fac, length fac = p /\ Forall (fun a => (0 < a)%R) fac /\ s_lr (o_pol o) = vmul (N := RNum mx) rates fac /\
       o_to o = vsub (N := RNum mx) (o_x o) (vscale (N := RNum mx) (c_eta (o_in o)) (vmul (N := RNum mx) (s_lr (o_pol o)) (c_g (o_in o)))) /\
       o_ok o = true) /\
  length (o_to o) = p /\ length (s_lr (o_pol o)) = p /\ Forall (fun a => (0 < a)%R) (s_lr (o_pol o)).
Proof. intros mx npow tiny alpha epsilon rate lambda n p x l Hl Hx H. exact (fresh_calls mx npow tiny alpha epsilon rate lambda n Hl p x l Hx H). Qed.
Print Assumptions C56_policy.
(** The test.  Objectives that never increase are not taken for a change ... *)
Theorem C56_no_false_alarm : forall lambda h, (0 <= lambda)%R -> descending h -> ~ changed lambda h.
Proof. exact descending_unchanged. Qed.
Print Assumptions C56_no_false_alarm.
(** ... and up to 1 / ratio of them the relaxed objective is their average. *)
Theorem C56_relaxed_average : forall h,
  (forall o m t, In ((o, m) :: t) (tails h) -> (INR (length t) <= 1 / m)%R) ->
  relaxed h = (sumR (map fst h) / INR (length h))%R.
Proof. exact relaxed_mean. Qed.
Print Assumptions C56_relaxed_average.
Example C56_no_false_alarm_example : descending [(1, 1/2); (2, 1/2); (2, 1/2); (5, 1/2)]%R.
Proof. cbn. repeat split; lra. Qed.
(** the test does fire: objectives 0 and then 10 with ratio 1/2 and threshold 1 *)
Example C56_change_example : changed 1 [(10, 1/2); (0, 1/2)]%R.
Proof.
  unfold changed. rewrite lowest_step, drift_step, mean_step, drift_one. cbn [relaxed length INR].
  destruct (Rlt_dec _ _); [lra|]. destruct (Rlt_dec _ _); [lra|].
  rewrite lowest_step, drift_one. unfold mean_relaxed. cbn [tails map sumR relaxed length INR lowest fold_right].
  destruct (Rlt_dec _ _); [lra|]. unfold Rmin. repeat destruct (Rle_dec _ _); lra.
Qed.
(** A policy with a negative threshold "backtracks" at the first call to a point that was
    never stored: the iterate becomes an empty matrix.  (SPALeRASGD's threshold is lambda times
    the average objective at the start, so it is negative whenever that is.) *)
Theorem C56_negative_threshold_refuted : forall mx npow nexp (tiny alpha epsilon rate lambda eta obj : R) b n p (x g : list R),
  (lambda < 0)%R -> (tiny < 1 / 2)%R ->
  exists s, update (N := RNum mx) npow nexp tiny alpha epsilon rate lambda eta obj b n x g (fresh p) = Some ([], true, s).
Proof. exact negative_lambda. Qed.
Print Assumptions C56_negative_threshold_refuted.

(** ---- the optimizer ---- *)
(** For every function, callback, decay policy and starting point: a call that returns reports
    as [spalera_report] says; all evaluations are of functions that exist, the values in the
    trace are the function's, and no step follows a request to stop. *)
Theorem C56_spalera : forall (N : Num) (D : Type) npow nexp (tiny alpha epsilon rate : N) f cb b maxIterations (tol lambda : N) shuffle exact
    (decay : D -> list N -> N -> list N -> D * N) fuel old eta d x r,
  0 < vf_num f -> 0 < b ->
  spalera npow nexp tiny alpha epsilon rate f cb b maxIterations tol lambda shuffle exact decay fuel old eta d x = Ret r ->
  exists first s' pol,
    (pol, pr_lam r) = match old with None => (fresh (length x), nmul (ndiv (total first) (nofnat (vf_num f))) lambda) | Some q => q end /\
    spalera_report (fun eta v c x g pol => update npow nexp tiny alpha epsilon rate (pr_lam r) eta v c (vf_num f) x g pol)
      decay (vf_num f) b (limit maxIterations) shuffle tol cb exact first pol eta d x (pr_val r) (pr_tr r) (pr_end r) s' /\
    pr_x r = q_x s' /\ pr_pol r = q_pol s' /\ (pr_end r <> PFailed -> pr_eta r = q_eta s' /\ pr_d r = q_d s') /\
    Forall (pin_range (vf_num f) b) (pr_tr r) /\ pcomputed f cb (pr_tr r) /\ phonoured cb (pr_tr r).
Proof. intros. eapply spalera_ok; eassumption. Qed.
Print Assumptions C56_spalera.
(** It ends (by returning, or by the exception for matrices of different sizes). *)
Theorem C56_ends : forall (N : Num) (D : Type) npow nexp (tiny alpha epsilon rate : N) f cb b maxIterations (tol lambda : N) shuffle exact
    (decay : D -> list N -> N -> list N -> D * N) fuel old eta d x,
  0 < vf_num f -> 0 < b -> limit maxIterations < fuel -> vf_num f <= fuel ->
  spalera npow nexp tiny alpha epsilon rate f cb b maxIterations tol lambda shuffle exact decay fuel old eta d x <> More.
Proof. intros. apply spalera_ends; assumption. Qed.
Print Assumptions C56_ends.
(** A run that steps out to -5, -2 and -1/2 and goes back to 1 each time, halving the rate. *)
Example C56_back_example : exists r, sprun 1 6 true 3 1 = Ret r /\
  flat_map (fun e => match e with PStep x _ => [x] | _ => [] end) (pr_tr r) = [[-5#1]; [1%Q]; [-2#1]; [1%Q]; [-1#2]; [1%Q]] /\
  s_lr (pr_pol r) = [1#8] /\ pr_val r = (3#1) /\ pr_x r = [1%Q].
Proof. exact sp_back. Qed.
(** "The objective of an epoch is the sum over its batches" is false of the first: the sum of
    the evaluations before the first step is not reset.  With the functions 1 + x^2 and
    1 + (x-1)^2, a step size of 0 and one epoch at 0 the call returns 6, while the sum is 3. *)
Theorem C56_first_epoch_refuted : exists r, sprun 1 2 false 0 0 = Ret r /\ pr_val r = (6#1) /\ pr_end r = PLimit /\
  pr_tr r = [@PBegin QNum [0%Q]; @PEval QNum [0%Q] 0 1 1%Q; @PEval QNum [0%Q] 1 1 (2#1); @PBeginEpoch QNum 1 (3#1);
             @PBoth QNum [0%Q] 0 1 1%Q [0%Q] [0%Q]; @PStep QNum [0%Q] 0%Q; @PBoth QNum [0%Q] 1 1 (2#1) [-2#1] [-2#1]; @PStep QNum [0%Q] 0%Q;
             @PEndEpoch QNum 1 (3#1); @PBeginEpoch QNum 2 (6#1); @PEnd QNum [0%Q]].
Proof. exact sp_first. Qed.
Print Assumptions C56_first_epoch_refuted.
(** "Optimize keeps the iterate's size" is false when the average objective at the start is
    negative: -2 + x^2 and -2 + (x-1)^2 from 0 with lambda = 1/100. *)
Theorem C56_negative_objective_refuted : exists r, sprun (-2#1) 2 false (1#4) 0 = Ret r /\ pr_x r = [] /\ pr_end r = PLimit /\ pr_lam r = (-3#200) /\
  In (@PStep QNum [] (1#4)) (pr_tr r).
Proof. exact sp_negative. Qed.
Print Assumptions C56_negative_objective_refuted.
