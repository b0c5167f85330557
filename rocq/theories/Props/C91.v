(** C91: simulated annealing with ExponentialSchedule: the temperature, and how far the energy can rise. *)
From Coq Require Import List Arith Bool Reals Lra Lia.
From Verif.Base Require Import Num Vec Instances.
From Verif.Model Require Import Common SA SACooling.
From Verif.Spec Require Import CommonSpec SASpec.
From Verif.Proof Require Import SAProof SACooling SACoolingEx.
Import ListNotations.
Local Open Scope R_scope.

(** Over the reals, for every objective, every stream of random numbers whose acceptance draws are at
    least xi > 0, all callbacks and limits, with cooling speed lambda in (0, 1) and initial temperature
    t0 > 0: the temperature left behind is t0 (1 - lambda)^k with k the number of steps reported, the
    value returned is at most the objective at the start plus
    t0 (initMoves + 1 / lambda) ln (1 / xi), and after the k-th reported step neither the value returned
    nor the objective at a later reported point exceeds the objective at that step by more than
    t0 (1 - lambda)^k / lambda ln (1 / xi). *)
Theorem C91_bounded_rise :
  forall (mx : R) maxIterations initMoves moveCtrlSweep maxToleranceSweep (tolerance maxMoveCoef initMoveCoef gain target lambda : R)
    (lg : R -> R) (f : list R -> R) (rnd : nat -> R * R) cb (t0 xi : R),
  0 < lambda < 1 -> 0 < t0 -> 0 < xi <= 1 -> (forall j, xi <= snd (rnd j)) ->
  forall (x : list R) r (T : R),
  sa_optimize (N := RNum mx) maxIterations initMoves moveCtrlSweep maxToleranceSweep tolerance maxMoveCoef initMoveCoef gain target
    (exponential_schedule (N := RNum mx) lambda) lg exp f rnd cb t0 x = Ret (r, T) ->
  T = t0 * (1 - lambda) ^ length (stepped (N := RNum mx) (o_tr r)) /\ o_val r = f (o_x r) /\
  o_val r <= f x + t0 * (INR initMoves + / lambda) * ln (/ xi) /\
  forall a y b, o_tr r = a ++ St y :: b ->
    let rise := t0 * (1 - lambda) ^ S (length (stepped (N := RNum mx) a)) / lambda * ln (/ xi) in
    o_val r <= f y + rise /\ forall z, In z (stepped (N := RNum mx) b) -> f z <= f y + rise.
Proof. exact annealing_bound. Qed.
Print Assumptions C91_bounded_rise.

(** REFUTED: the same without a bound on the draws.  arma::randu() may return 0, and a draw of 0
    accepts every move: whatever B, one move on the function B x from x = 0 at temperature 1 ends with
    the value B. *)
Theorem C91_zero_draw_refuted : forall mx B, exists r T, climb mx B = Ret (r, T) /\ o_val r = B.
Proof. exact climb_value. Qed.
Print Assumptions C91_zero_draw_refuted.

(** The hypotheses can be met, and such runs end: the square of the only element, draws of 1/2, cooling
    speed 1/1000, temperature 10000, which are the defaults for the last two. *)
Example C91_case : forall mx, exists r T,
  sa_optimize (N := RNum mx) 100 10 2 3 (/ 100) 20 (/ 10) (/ 3) (44 / 100) (exponential_schedule (N := RNum mx) (/ 1000)) ln exp
    (fun x => nth 0 x 0 * nth 0 x 0) (fun j => (/ INR (S (S j)), / 2)) {| cs_stop := fun _ => false; cs_grad := fun _ _ _ g => g |} 10000 [3]
  = Ret (r, T) /\ o_val r <= 9 + 10000 * (INR 10 + / / 1000) * ln (/ / 2).
Proof.
  intros mx.
  destruct (sa_ok (N := RNum mx) 100 10 2 3 (/ 100) 20 (/ 10) (/ 3) (44 / 100) (exponential_schedule (N := RNum mx) (/ 1000)) ln exp
    (fun x => nth 0 x 0 * nth 0 x 0) (fun j => (/ INR (S (S j)), / 2)) {| cs_stop := fun _ => false; cs_grad := fun _ _ _ g => g |} [3] 10000 (R_ord mx) ltac:(discriminate)) as (r & T & E & _).
  exists r, T. split; [exact E|].
  destruct (C91_bounded_rise mx 100 10 2 3 (/ 100) 20 (/ 10) (/ 3) (44 / 100) (/ 1000) ln (fun x => nth 0 x 0 * nth 0 x 0) (fun j => (/ INR (S (S j)), / 2))
    {| cs_stop := fun _ => false; cs_grad := fun _ _ _ g => g |} 10000 (/ 2) ltac:(lra) ltac:(lra) ltac:(lra) ltac:(intros; cbn; lra) [3] r T E) as (_ & _ & B & _).
  replace 9 with (nth 0 [3] 0 * nth 0 [3] 0) by (cbn; ring). exact B.
Qed.
