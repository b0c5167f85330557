(** C55: big-batch SGD. *)
From Coq Require Import List Arith Bool ZArith QArith Lia.
From Verif.Base Require Import Num Vec Size Instances QInst.
From Verif.Model Require Import Common VarRed BigBatch.
From Verif.Spec Require Import SgdSpec VarRedSpec BigBatchSpec.
From Verif.Proof Require Import BigBatchProof BigBatchMore.
Import ListNotations.
Local Open Scope nat_scope.

(** For every function, callback, update policy, norm, growth rule and starting point: a call
    that returns has made steps as [bb_report] says.  Each evaluates the gradients of a batch,
    which may grow, lets the policy search a step size on the batch until the Armijo condition
    holds, and moves.  All evaluations, the policy's included, are of functions that exist, the
    values in the trace are the function's, and no step follows a request to stop. *)
Theorem C55_bigbatch : forall (N : Num) (f : VFun N) cb pol maxIterations (tol : N) shuffle exact norm offset fuel b (eta : N) prev x r,
  0 < b -> 0 < vf_num f ->
  bigbatch f cb pol maxIterations tol shuffle exact norm offset fuel b eta prev x = Ret r ->
  exists s', bb_report (vf_num f) (limit maxIterations) shuffle tol norm pol cb exact b eta prev x (br_val r) (br_tr r) (br_conv r) s' /\
    br_x r = p_x s' /\ br_prev r = p_prev s' /\ br_eta r = p_eta s' /\ br_bs r = p_bs s' /\
    Forall (bin_range (vf_num f)) (br_tr r) /\ bcomputed f cb (br_tr r) /\ bhonoured cb (br_tr r).
Proof. intros. eapply bigbatch_ok; eassumption. Qed.
Print Assumptions C55_bigbatch.
Example C55_bigbatch_example : exists r, bbrun bt false 3 3 (7#4) = Ret r /\ br_bs r = 4 /\ br_val r = (9#1).
Proof. destruct b_plain as (r & H & _ & A & B & _). eauto. Qed.

(** The batches whose objective is summed are intervals one after the other, cyclically: the
    steps of a run visit 0, 1, .., n-1, 0, 1, .. without gap or repetition, so between two ends
    of epochs every function is in exactly one batch. *)
Theorem C55_covers : forall (N : Num) n lim (tol : N) norm pol b (eta : N) prev x l s,
  0 < n -> brun n lim tol norm pol (bstart b eta prev x) l s ->
  flat_map (fun p => seq (fst p) (snd p)) (batches_of n lim (bstart b eta prev x) l) = map (fun k => k mod n) (seq 0 (p_i s)).
Proof. intros. eapply covers_start; eassumption. Qed.
Print Assumptions C55_covers.
(** The batch size of an object never shrinks, neither from step to step nor from call to
    call, and a batch that grows stays smaller than the number of functions. *)
Theorem C55_never_shrinks : forall (N : Num) n lim (tol : N) norm pol b (eta : N) prev x l s,
  brun n lim tol norm pol (bstart b eta prev x) l s ->
  b <= p_bs s <= Nat.max b (n - 1) /\
  forall l1 q l2, l = l1 ++ q :: l2 -> b <= p_bs (snd q) <= p_bs s /\ Forall (fun q' => p_bs (snd q) <= p_bs (snd q')) l2.
Proof. intros. eapply shrinks; eassumption. Qed.
Print Assumptions C55_never_shrinks.
Theorem C55_size_after : forall (N : Num) (f : VFun N) cb pol maxIterations (tol : N) shuffle exact norm offset fuel b (eta : N) prev x r,
  0 < b -> 0 < vf_num f ->
  bigbatch f cb pol maxIterations tol shuffle exact norm offset fuel b eta prev x = Ret r ->
  b <= br_bs r <= Nat.max b (vf_num f - 1).
Proof. intros. eapply size_after; eassumption. Qed.
Print Assumptions C55_size_after.
(** Only the last batch can pass maxIterations, and only by the functions it grew by. *)
Theorem C55_overshoot : forall (N : Num) n lim (tol : N) norm pol b (eta : N) prev x l s,
  brun n lim tol norm pol (bstart b eta prev x) l s ->
  p_i s <= lim \/ exists l' t m, l = l' ++ [(t, m)] /\ p_i s <= lim + list_sum (u_grow t).
Proof. intros. eapply overshoot; [eassumption|apply Nat.le_0_l]. Qed.
Print Assumptions C55_overshoot.
(** It does pass it: with maxIterations = 3 and batches of 3 this run visits 4 functions.  And
    "the gradient of a step is that of its batch" is false when the batch grew: the gradient of
    function 2 is counted twice, that of function 3 not at all, while the objective the line
    search tests and the call reports is that of functions 0 to 3. *)
Theorem C55_grown_gradient_refuted : exists r, bbrun bt false 3 3 (7#4) = Ret r /\
  flat_map (fun e => match e with BGrad _ i _ _ => [i] | _ => [] end) (br_tr r) = [0; 1; 2; 2] /\
  In (@BEval QNum [3#2] 0 4 (9#1)) (br_tr r) /\ br_bs r = 4.
Proof. exact b_grown. Qed.
Print Assumptions C55_grown_gradient_refuted.
(** In double precision a batch of one function never grows, whatever the gradients: the test
    computes 1 / (1 - 1) * 0, which is not a number.  "The batch grows while the gradient is
    dominated by noise" is false from batchSize = 1 on. *)
Theorem C55_single_never_grows : forall (f : VFun F64) cb pol maxIterations (tol : F64) shuffle exact norm offset fuel (eta : F64) prev x r,
  bigbatch f cb pol maxIterations tol shuffle exact norm offset fuel 1 eta prev x = Ret r -> br_bs r = 1.
Proof. exact one_stays. Qed.
Print Assumptions C55_single_never_grows.
(** The running mean of the first two gradients is the second one (the divisor starts at 1
    and not at 2), so their variance is always computed as norm(b - a) * norm(0): with gradients
    2 and -4 the mean is -1 and the sample variance 18, yet the batch of 2 does not grow. *)
Theorem C55_two_variance_refuted : exists r, bbrun bt true 3 2 1%Q = Ret r /\ br_bs r = 2 /\
  exists rest, br_tr r = @BBegin QNum [1%Q] :: @BGrad QNum [1%Q] 0 [2#1] [2#1] :: @BGrad QNum [1%Q] 1 [-4#1] [-4#1] :: rest.
Proof. exact b_two. Qed.
Print Assumptions C55_two_variance_refuted.
(** AdaptiveStepsize moves the iterate itself before the optimiser does: this run reports the
    steps to 3/2 and 7/9, and the second starts at 1, where nothing was reported. *)
Theorem C55_adaptive_moves_twice_refuted : exists r, bbrun ad false 3 2 1%Q = Ret r /\ br_x r = [7#9] /\
  filter (fun e => match e with BStep _ _ => true | _ => false end) (br_tr r) = [@BStep QNum [3#2] (1#6); @BStep QNum [7#9] (1#9)] /\
  In (@BEvalQ QNum [1#1] 2 1 (1#1)) (br_tr r).
Proof. exact b_adaptive. Qed.
Print Assumptions C55_adaptive_moves_twice_refuted.
