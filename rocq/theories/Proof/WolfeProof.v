From Coq Require Import List Arith Bool Reals Lra Lia.
From Verif.Base Require Import Num Instances Vec.
From Verif.Spec Require Import LBFGSSpec.
From Verif.Proof Require Import LineSearchProof BFGSProof.
Import ListNotations.
Local Open Scope R_scope.

Section Wolfe.
  Variable mx : R.
  Notation N := (RNum mx).
  Variables (armijo wolfe minStep maxStep : R) (maxTrials : nat).
  Variable f : list R -> R * list R.

  Lemma steps_positive (ts : list (N * N * list N)) : step_sizes ts ->
    forall i t, nth_error ts i = Some t -> 0 < t_step t.
  Proof.
    intros [S1 S2]. induction i as [|i IH]; intros t E.
    - rewrite (S1 t E). cbn. lra.
    - destruct (nth_error ts i) as [u|] eqn:EU.
      2: { apply nth_error_None in EU. assert (S i < length ts)%nat by (apply nth_error_Some; congruence). lia. }
      pose proof (IH u eq_refl) as P. destruct (S2 i u t EU E) as [-> | ->]; cbn in *; lra.
  Qed.

  Lemma Rltb_false (a b : R) : nlt (n := N) a b = false -> b <= a.
  Proof. cbn. intros H. destruct (Rltb_spec a b); [discriminate|lra]. Qed.
  Lemma Rltb_true (a b : R) : nlt (n := N) a b = true -> a < b.
  Proof. cbn. intros H. destruct (Rltb_spec a b); [assumption|discriminate]. Qed.

  (** acceptance: the point moved to has the least value of all trials, and it satisfies
      f(x') <= f(x) + armijo * (accepted step) * slope *)
  Lemma accepted_decrease v0 (x g d : list R) (ts : list (N * N * list N)) (a v' : R) (x' g' : list R) before t :
    searched (N := N) armijo wolfe minStep maxStep maxTrials f v0 x g d ts a v' x' g' ->
    ts = before ++ [t] -> strong_wolfe (N := N) armijo wolfe v0 (vdot (N := N) g d) d t ->
    t_val t < mx ->
    0 < t_step t /\ fst (f x') <= t_val t /\ t_val t <= v0 + armijo * t_step t * vdot (N := N) g d.
  Proof.
    intros (SL & SS & TV & LE & NN & BS & X & _) TS (W1 & _) MX.
    assert (ET : nth_error ts (length before) = Some t) by (rewrite TS; apply nth_error_last).
    split; [apply (steps_positive ts SS _ t ET)|]. apply Rltb_false in W1. cbn [nadd nmul RNum] in W1. split.
    - destruct BS as [(i & u & EU & SU & _ & L)|(_ & L)].
      + destruct (L _ t ET) as [NL _]. apply Rltb_false in NL. rewrite X, <- SU.
        pose proof (TV u (nth_error_In _ _ EU)) as TU. apply Rle_trans with (t_val u); [right; symmetry; exact TU|exact NL].
      + exfalso. specialize (L t (nth_error_In _ _ ET)). apply Rltb_false in L. cbn in L. lra.
    - replace (armijo * t_step t * vdot (N := N) g d) with (t_step t * (armijo * vdot (N := N) g d)) by ring.
      exact W1.
  Qed.
End Wolfe.
