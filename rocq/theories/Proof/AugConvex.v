(** Proofs for C95: the multipliers of a convex problem. *)
From Coq Require Import List Arith Bool ZArith Reals Lra Lia.
From Verif.Base Require Import Num Instances Vec.
From Verif.Model Require Import Common AugLag.
From Verif.Spec Require Import AugLagSpec AugOptSpec.
From Verif.Proof Require Import AugLagProof AugOpt.
Import ListNotations.
Local Open Scope R_scope.

(* multipliers after the move *)
Fixpoint steps (sigma : R) (x : list R) (lambda : list R) (cs : list (list R -> R)) : list R :=
  match lambda, cs with l :: lambda', c :: cs' => (l - sigma * c x) :: steps sigma x lambda' cs' | _, _ => lambda end.

Lemma steps_nth sigma x : forall lambda cs i,
  nth_error (steps sigma x lambda cs) i =
    match nth_error lambda i, nth_error cs i with Some l, Some c => Some (l - sigma * c x) | o, _ => o end.
Proof.
  induction lambda as [|l lambda IH]; intros cs i; [destruct cs, i; reflexivity|].
  destruct cs as [|c cs].
  - destruct i as [|i]; [reflexivity|]. cbn [steps nth_error]. destruct (nth_error lambda i); reflexivity.
  - destruct i as [|i]; [reflexivity|]. cbn [steps nth_error]. apply IH.
Qed.

Lemma nth_error_ext' {A : Type} (a b : list A) : (forall i, nth_error a i = nth_error b i) -> a = b.
Proof.
  revert b. induction a as [|u a IH]; intros [|v b] H; try reflexivity; try discriminate (H 0%nat).
  pose proof (H 0%nat) as H0. injection H0 as ->. f_equal. apply IH. intros i. exact (H (S i)).
Qed.

Lemma moved_steps mx cs lambda sigma x lambda' : moved (N := RNum mx) cs lambda sigma x lambda' ->
  lambda' = steps sigma x lambda cs.
Proof. intros M. apply nth_error_ext'. intros i. rewrite steps_nth. exact (M i). Qed.

Lemma apart_steps sigma x : forall cs lambda ls, length lambda = length cs -> length ls = length cs ->
  apart lambda ls = apart (steps sigma x lambda cs) ls
    + 2 * sigma * (csum (fun l (c : list R -> R) => l * c x) lambda cs - sigma * violated cs x
                   - csum (fun l (c : list R -> R) => l * c x) ls cs)
    + sigma ^ 2 * violated cs x.
Proof.
  induction cs as [|c cs IH]; intros [|l lambda] [|m ls] A B; try discriminate.
  - cbn. ring.
  - cbn [apart steps csum]. change (violated (c :: cs) x) with (c x ^ 2 + violated cs x).
    rewrite (IH lambda ls) by (cbn in A, B; congruence). ring.
Qed.

Lemma csum_scaled cs x w t lambda : (forall c, In c cs -> c w = t * c x) ->
  csum (fun l (c : list R -> R) => l * c w) lambda cs = t * csum (fun l (c : list R -> R) => l * c x) lambda cs /\
  violated cs w = t ^ 2 * violated cs x.
Proof.
  intros H. split.
  - revert lambda. induction cs as [|c cs IH]; intros [|l lambda]; cbn [csum]; try ring.
    rewrite IH by (intros; apply H; right; assumption). rewrite (H c (or_introl eq_refl)). ring.
  - induction cs as [|c cs IH]; [cbn; ring|].
    change (violated (c :: cs) w) with (c w ^ 2 + violated cs w). change (violated (c :: cs) x) with (c x ^ 2 + violated cs x).
    rewrite IH by (intros; apply H; right; assumption). rewrite (H c (or_introl eq_refl)). ring.
Qed.

Lemma between_length t : forall x z, length x = length z -> length (between t x z) = length x.
Proof. induction x as [|a x IH]; intros [|b z] H; try discriminate; [reflexivity|]. cbn. f_equal. apply IH. cbn in H. lia. Qed.

(* a + b t <= 0 for all small positive t *)
Lemma limit_le a b : 0 <= b -> (forall t, 0 < t <= 1 -> a - b * t <= 0) -> a <= 0.
Proof.
  intros B H. destruct (Rle_dec a 0) as [|C]; [assumption|]. exfalso. apply Rnot_le_lt in C.
  set (t := a / (a + 2 * b)).
  assert (D : 0 < a + 2 * b) by lra.
  assert (T : t * (a + 2 * b) = a) by (unfold t; field; lra).
  assert (T0 : 0 < t) by (unfold t; apply Rmult_lt_0_compat; [lra|apply Rinv_0_lt_compat; lra]).
  assert (T1 : t <= 1). { apply (Rmult_le_reg_r (a + 2 * b)); lra. }
  pose proof (H t (conj T0 T1)) as K. nra.
Qed.

Section Step.
  Variables (p : nat) (f : list R -> R) (cs : list (list R -> R)) (best ls lambda x : list R) (sigma : R).
  Hypotheses (CP : convex_problem p f cs) (MU : multipliers p f cs best ls).
  Hypotheses (L : length lambda = length cs) (Lx : length x = p) (P : 0 < sigma).
  Hypothesis M : forall z, length z = p -> augmented f cs lambda sigma x <= augmented f cs lambda sigma z + 0.

  Let C l := csum (fun l (c : list R -> R) => l * c x) l cs.

  Lemma lagrangian_min : f x - C lambda + sigma * violated cs x <= f best.
  Proof.
    destruct MU as (Lb & _ & Fb & _).
    assert (V0 : 0 <= violated cs x) by apply squares_nonneg.
    enough (K : f x - C lambda + sigma * violated cs x - f best <= 0) by lra.
    apply (limit_le _ (sigma / 2 * violated cs x)). { apply Rmult_le_pos; lra. }
    intros t [T0 T1].
    destruct (CP x best t Lx Lb ltac:(lra)) as (Fz & Cz).
    assert (Lz : length (between t x best) = p) by (rewrite between_length; congruence).
    pose proof (M _ Lz) as B. unfold augmented in B.
    rewrite (csum_violated cs x lambda), (csum_violated cs (between t x best) lambda) in B by (rewrite L; apply le_n).
    destruct (csum_scaled cs x (between t x best) (1 - t) lambda) as (E1 & E2).
    { intros c I. rewrite (Cz c I), (Fb c I). ring. }
    rewrite E1, E2 in B. fold (C lambda) in B.
    set (V := violated cs x) in *. set (Q := C lambda) in *.
    assert (t * (f x - Q + sigma * V - f best - sigma / 2 * V * t) <= 0) by nra.
    apply (Rmult_le_reg_l t); [exact T0|]. lra.
  Qed.

  Lemma closer : apart (steps sigma x lambda cs) ls + sigma ^ 2 * violated cs x <= apart lambda ls.
  Proof.
    pose proof lagrangian_min as A. destruct MU as (_ & Ll & _ & Sa). pose proof (Sa x Lx) as B.
    rewrite (apart_steps sigma x cs lambda ls L Ll). fold (C lambda). fold (C ls) in B |- *.
    assert (0 <= C lambda - sigma * violated cs x - C ls) by lra.
    assert (0 <= 2 * sigma * (C lambda - sigma * violated cs x - C ls)) by (apply Rmult_le_pos; lra). lra.
  Qed.
End Step.

Lemma reach_closer mx (S : Type) (tf sf tol : R) p f cs best ls
    (solve : list (aev (RNum mx)) -> S -> list R -> R -> list R -> list R * S) (a0 : outer (RNum mx) S) k (a : outer (RNum mx) S) :
  convex_problem p f cs -> multipliers p f cs best ls -> exactly p f cs solve -> 0 < sf ->
  @length R (q_lambda a0) = length cs -> 0 < q_sigma a0 ->
  reach (N := RNum mx) tf sf tol f cs solve a0 k a ->
  0 < q_sigma a /\ @length R (q_lambda a) = length cs /\ apart (q_lambda a) ls <= apart (q_lambda a0) ls.
Proof.
  intros CP MU (EX & LE) SF L0 S0 H. induction H as [|k a x' s' b H IH I C U]; [split; [exact S0|split; [exact L0|apply Rle_refl]]|].
  destruct IH as (Sg & La & D). destruct I as (h & I). pose proof (f_equal fst I) as I1. cbn [fst] in I1.
  destruct U as (_ & _ & _ & [(_ & M & E & _)|(_ & E1 & E & _)]).
  - pose proof (moved_steps mx _ _ _ _ _ M) as Eb. split; [rewrite E; exact Sg|].
    split; [exact (eq_trans (moved_length (N := RNum mx) _ _ _ _ _ M) La)|].
    apply (Rle_trans _ (apart (q_lambda a) ls)); [|exact D].
    assert (K : apart (steps (q_sigma a) x' (q_lambda a) cs) ls + q_sigma a ^ 2 * violated cs x' <= apart (q_lambda a) ls).
    { apply (closer p f cs best ls); try assumption.
      - rewrite <- I1. apply LE.
      - intros z Lz. rewrite <- I1. apply EX; [rewrite La; apply le_n|exact Sg|exact Lz]. }
    assert (0 <= q_sigma a ^ 2 * violated cs x').
    { apply Rmult_le_pos; [rewrite <- Rsqr_pow2; apply Rle_0_sqr|apply squares_nonneg]. }
    rewrite Eb. lra.
  - rewrite E1, E. split; [apply Rmult_lt_0_compat; assumption|]. split; assumption.
Qed.

Lemma squares_apart : forall l ls, length l = length ls -> squares l <= 2 * squares ls + 2 * apart l ls.
Proof.
  induction l as [|a l IH]; intros [|b ls] H; try discriminate; [cbn; lra|].
  change (squares (a :: l)) with (a ^ 2 + squares l). change (squares (b :: ls)) with (b ^ 2 + squares ls). cbn [apart].
  pose proof (IH ls ltac:(cbn in H; congruence)). pose proof (Rle_0_sqr (a - 2 * b)). unfold Rsqr in *. nra.
Qed.

(** ** the problem of [silent] *)
Lemma dist3_convex : convex_problem 1 dist3 [first].
Proof.
  intros [|x [|]] [|z [|]] t Lx Lz T; try discriminate. unfold dist3, first. cbn [between hd]. split.
  - assert (0 <= t * (1 - t) * (x - z) ^ 2).
    { apply Rmult_le_pos; [apply Rmult_le_pos; lra|rewrite <- Rsqr_pow2; apply Rle_0_sqr]. } nra.
  - intros c [<-|[]]. cbn. ring.
Qed.
Lemma dist3_multipliers : multipliers 1 dist3 [first] [0] [-3].
Proof.
  split; [reflexivity|]. split; [reflexivity|]. split; [intros c [<-|[]]; reflexivity|].
  intros [|x [|]] Lx; try discriminate. unfold dist3, first. cbn [csum hd].
  pose proof (Rle_0_sqr x). unfold Rsqr in *. nra.
Qed.
Lemma dist3_exactly E : exactly 1 dist3 [first] (@exact_solve E).
Proof. split; [apply exact_minimises; lra|]. intros; reflexivity. Qed.
