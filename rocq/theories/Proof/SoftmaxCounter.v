From Coq Require Import Arith Bool List Reals Lra Lia.
From Verif.Model Require Import Softmax.
From Verif.Spec Require Import SoftmaxSpec.
From Verif.Proof Require Import SoftmaxProof SoftmaxModel.
Import ListNotations.
Local Open Scope R_scope.

Lemma batch_throws : forall data rows cols labels classes lambda intercept, (0 < classes)%nat ->
  forall par start b, let s := construct data rows cols labels classes lambda intercept in
  (forall i, (i < b)%nat -> (labels (start + i)%nat < classes)%nat) ->
  classes <> num_features s -> evaluate_batch s par start b = None.
Proof.
  intros. unfold s. rewrite evaluate_batch_ok by assumption.
  match goal with |- (if ?c then _ else _) = _ => destruct c eqn:E end; [|reflexivity].
  apply Nat.eqb_eq in E. contradiction.
Qed.
Lemma partial_last : forall data rows cols labels classes lambda par, (0 < classes)%nat -> (0 < rows)%nat ->
  let s := construct data rows cols labels classes lambda true in
  partial_gradient s par (num_features s - 1) = None.
Proof.
  intros data rows cols labels classes lambda par C R0 s.
  replace (num_features s - 1)%nat with rows by (unfold s, num_features; cbn; lia).
  apply (partial_intercept data rows cols labels classes lambda true C par 0 eq_refl R0).
Qed.

Lemma batch_evaluate_wrong :
  ~ (forall data rows cols labels classes lambda intercept par start b v,
     (0 < classes)%nat -> (0 < b)%nat -> (forall i, (i < b)%nat -> (labels (start + i)%nat < classes)%nat) ->
     evaluate_batch (construct data rows cols labels classes lambda intercept) par start b = Some v ->
     v = objective data rows labels classes lambda intercept start b par).
Proof.
  intros K. set (par := fun r c : nat => if ((r =? 0) && (c =? 1))%nat%bool then 1 else 0 : R).
  pose proof (evaluate_batch_ok (fun _ _ => 0) 2 1 (fun _ => 0%nat) 2 2 false par 0 1 ltac:(intros; cbn; lia)) as E.
  cbn [width Nat.eqb] in E. eapply K in E; [|lia|lia|intros; cbn; lia].
  unfold accu, square_norm, total, par in E. cbn in E. lra.
Qed.
Lemma partial_wrong :
  ~ (forall data rows cols labels classes lambda par j g k,
     let s := construct data rows cols labels classes lambda true in
     (0 < classes)%nat -> (0 < cols)%nat -> (k < classes)%nat -> (j < num_features s)%nat ->
     partial_gradient s par j = Some g -> g k j = gradient s par k j).
Proof.
  intros K. set (data := fun j _ : nat => INR j).
  destruct (partial_intercept data 2 1 (fun _ => 0%nat) 2 0 true ltac:(lia) (fun _ _ => 0) 1%nat eq_refl ltac:(lia)) as [_ Q].
  destruct (Q ltac:(lia)) as (g & E & V).
  specialize (K data 2%nat 1%nat (fun _ => 0%nat) 2%nat 0 (fun _ _ => 0) 1%nat g 0%nat ltac:(lia) ltac:(lia) ltac:(lia) ltac:(cbn; lia) E).
  rewrite (V 0%nat) in K. unfold gradient in K. rewrite gradient_ok in K.
  unfold G, P, Z, truth, logit, feature, data in K. rewrite !total_usum in K. cbn in K.
  rewrite !Rmult_0_l, !Rplus_0_l, exp_0 in K. lra.
Qed.
Lemma shuffle_wrong :
  ~ (forall data rows cols labels classes lambda intercept ord rev s' k i,
     let s := construct data rows cols labels classes lambda intercept in
     (forall i, (i < cols)%nat -> (labels i < classes)%nat) ->
     (forall i, (i < cols)%nat -> (ord i < cols)%nat /\ rev (ord i) = i /\ (rev i < cols)%nat /\ ord (rev i) = i) ->
     shuffle s labels ord rev = Some s' -> (k < classes)%nat -> (i < cols)%nat ->
     sm_truth s' k i = sm_truth s k (ord i)).
Proof.
  intros K. specialize (K (fun _ _ => 0) 1%nat 2%nat (fun _ => 0%nat) 2%nat 0 false (fun i => i) (fun i => i) _ 0%nat 1%nat
    ltac:(intros; cbn; lia) ltac:(intros; cbn; lia) eq_refl ltac:(lia) ltac:(lia)). cbn in K. lra.
Qed.
Lemma two_samples :
  let s := construct (fun _ i => if (i =? 0)%nat then 1 else -1) 1 2 (fun i => i) 2 0 false in
  evaluate s (fun _ _ => 0) = ln 2 /\ gradient s (fun _ _ => 0) 0%nat 0%nat = - (1 / 2).
Proof.
  cbv zeta. split.
  - rewrite evaluate_ok by (intros; cbn; lia). unfold objective, square_norm, loss, logit. unfold total. cbn.
    rewrite ?Rmult_0_l, ?Rmult_0_r, ?Rplus_0_l, ?Rplus_0_r, !exp_0.
    assert (E : ln (1 / (1 + 1)) = - ln 2) by (unfold Rdiv; rewrite Rmult_1_l; apply ln_Rinv; lra). rewrite E. lra.
  - unfold gradient. rewrite gradient_ok. unfold G, P, Z, truth, logit, feature. unfold total. cbn.
    rewrite ?Rmult_0_l, ?Rmult_0_r, ?Rplus_0_l, ?Rplus_0_r, !exp_0. lra.
Qed.
