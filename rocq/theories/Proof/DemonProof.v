From Coq Require Import List Arith Reals Lra Lia.
From Verif.Base Require Import Num Instances.
From Verif.Model Require Import Updates DemonSchedule.
From Verif.Proof Require Import UpdatesProof BoundProof.
Local Open Scope R_scope.

Lemma demon_schedule :
  forall mx b (maxIterations batchSize t : nat),
  (0 < maxIterations)%nat -> (2 <= batchSize)%nat -> 0 < b < 1 -> (t <= maxIterations)%nat ->
  let rate := 1 - / INR batchSize in
  0 < b * rate / ((1 - b) + b * rate)
    <= demon_beta (N := RNum mx) b (demon_iterations maxIterations batchSize) t.
Proof.
  intros mx b m k t M K B T rate.
  assert (KI : 2 <= INR k) by (change 2 with (INR 2); apply le_INR; exact K).
  assert (MI : 1 <= INR m) by (change 1 with (INR 1); apply le_INR; exact M).
  assert (TI : 0 <= INR t <= INR m) by (split; [apply pos_INR|apply le_INR; exact T]).
  assert (IK : 0 < / INR k <= / 2) by (split; [apply Rinv_0_lt_compat; lra|apply Rinv_le_contravar; lra]).
  assert (P : (0 < demon_iterations m k)%nat) by (unfold demon_iterations; nia).
  eassert (E : _) by (exact (demon_beta_R mx b (demon_iterations m k) t P)).
  set (q := 1 - INR t / INR (demon_iterations m k)) in *.
  assert (RQ : rate <= q).
  { unfold q, rate, demon_iterations. rewrite mult_INR. unfold Rdiv. rewrite Rinv_mult.
    assert (IM : 0 < / INR m) by (apply Rinv_0_lt_compat; lra).
    assert (INR t * / INR m <= 1).
    { apply Rmult_le_reg_r with (INR m); [lra|]. rewrite Rmult_assoc, Rinv_l by lra. lra. }
    assert (INR t * / INR m * / INR k <= 1 * / INR k) by (apply Rmult_le_compat_r; lra). lra. }
  assert (RP : / 2 <= rate) by (unfold rate; lra).
  assert (BR : 0 < b * rate) by (apply Rmult_lt_0_compat; lra).
  assert (BQ : b * rate <= b * q) by (apply Rmult_le_compat_l; lra).
  split; [apply Rmult_lt_0_compat; [exact BR|apply Rinv_0_lt_compat; lra]|].
  eapply Rle_trans; [|right; symmetry; exact E].
  apply Rmult_le_reg_r with ((1 - b + b * rate) * (1 - b + b * q)); [apply Rmult_lt_0_compat; lra|].
  replace (b * rate / (1 - b + b * rate) * ((1 - b + b * rate) * (1 - b + b * q))) with (b * rate * (1 - b + b * q)) by (field; lra).
  replace (b * q / (1 - b + b * q) * ((1 - b + b * rate) * (1 - b + b * q))) with (b * q * (1 - b + b * rate)) by (field; lra).
  nra.
Qed.

Lemma demon_default mx m t : (0 < m)%nat -> (t <= m)%nat ->
  897 / 1000 <= demon_beta (N := RNum mx) (9 / 10) (demon_iterations m 32) t.
Proof.
  intros M T. destruct (demon_schedule mx (9 / 10) m 32 t M ltac:(lia) ltac:(lra) T) as [_ L].
  eapply Rle_trans; [|exact L]. cbv zeta. replace (INR 32) with 32 by (rewrite INR_IZR_INZ; reflexivity). lra.
Qed.

Lemma demon_not_zero :
  ~ (forall mx b maxIterations batchSize, (0 < maxIterations)%nat -> (0 < batchSize)%nat -> 0 < b < 1 ->
     demon_beta (N := RNum mx) b (demon_iterations maxIterations batchSize) maxIterations = 0).
Proof.
  intros K. specialize (K 0 (9 / 10) 10%nat 2%nat ltac:(lia) ltac:(lia) ltac:(lra)).
  destruct (demon_schedule 0 (9 / 10) 10 2 10 ltac:(lia) ltac:(lia) ltac:(lra) ltac:(lia)) as [P L]. cbv zeta in *.
  pose proof (Rlt_le_trans _ _ _ P L) as Q. eapply Rlt_irrefl. eapply Rlt_le_trans; [exact Q|right; exact K].
Qed.
