From Coq Require Import List Arith Bool Reals Lra Lia Permutation.
From Verif.Base Require Import Num Vec Instances Size.
From Verif.Model Require Import Common SA ParallelSgd.
From Verif.Spec Require Import ConvergeSpec ParSpec ParSerialSpec BackoffSpec DecaySpec.
From Verif.Proof Require Import SgdRate ParSerial ParFloorEx BackoffRun BackoffEx Decay.
Import ListNotations.
Local Open Scope R_scope.

(** step sizes that tend to zero too fast *)
Definition halving (i : nat) : R := / 8 * (/ 2) ^ i.
Lemma halving_pos i : 0 < halving i <= / 8.
Proof.
  unfold halving. induction i as [|i IH]; cbn [pow]; lra.
Qed.
Lemma halving_sum : forall e i, sum_from halving i e = 2 * halving i - 2 * halving (i + e).
Proof.
  induction e as [|e IH]; intros i; cbn [sum_from]; [rewrite Nat.add_0_r; ring|]. rewrite IH.
  replace (i + S e)%nat with (S i + e)%nat by lia. unfold halving. cbn [pow]. field.
Qed.
Lemma halving_vanishing : vanishing halving.
Proof.
  intros d D. destruct (pow_lt_1_zero (/ 2) ltac:(rewrite Rabs_pos_eq; lra) d D) as [K HK]. exists K. intros k I. specialize (HK k I).
  rewrite Rabs_pos_eq in HK by (apply pow_le; lra). unfold halving. assert (0 <= (/ 2) ^ k) by (apply pow_le; lra). lra.
Qed.
Lemma halving_stuck mx f M fuel x : (M < fuel)%nat ->
  exists v full c, solo_run mx halving f M fuel x = Ret (v, [c * x], full) /\ 7 / 8 <= c <= 1.
Proof.
  intros LF. destruct (solo_loop mx halving f M 0 fuel x (nmax (n := RNum mx)) [OBegin (N := RNum mx) [x]] LF) as (v & full & Q).
  eexists v, full, _. split; [exact Q|]. assert (E : halving 1 = / 16) by (unfold halving; cbn; lra).
  pose proof (halving_sum M 1) as HS. pose proof (halving_pos (1 + M)) as HP.
  pose proof (prod_lower 1 halving ltac:(lra) M 1%nat (fun j _ => proj1 (halving_pos j)) ltac:(lra)). lra.
Qed.
