(** C96: the rate of AugLagrangian on convex problems. *)
From Coq Require Import List Arith Bool ZArith Reals Lra Lia.
From Verif.Base Require Import Num Instances Vec.
From Verif.Model Require Import Common AugLag.
From Verif.Spec Require Import AugLagSpec AugOptSpec.
From Verif.Proof Require Import AugLagProof AugOpt AugConvex AugRate.
Import ListNotations.
Local Open Scope R_scope.

(** Convex objective, affine constraints, optimal multipliers [ls] for the solution [best], an
    exact inner optimizer; [lambda] and [sigma] are the multipliers and the penalty parameter
    the call starts with, [k] is the number of reported steps, however the call ended and
    whatever it returned.  Any q <= 1 with penaltyThresholdFactor <= q^2 and
    1 / sigmaUpdateFactor <= q is a rate: the sum of the squared constraints is at most
    |lambda - ls|^2 / sigma^2 * q^(k - 2).  The defaults 1/4 and 10 allow q = 1/2.  The
    objective is as close to the optimal one as the constraints are to being satisfied. *)
Theorem C96_rate :
  forall (mx : R) (St : Type) (maxIterations : nat) (thrFactor sigmaFactor tolerance : R) (f : list R -> R)
         (cs : list (list R -> R)) solve stop fuel term0 (s : St) lambda sigma x r (p : nat) best ls (q : R),
  convex_problem p f cs -> multipliers p f cs best ls -> exactly p f cs solve ->
  1 < sigmaFactor -> 0 <= thrFactor -> 0 < sigma -> length lambda = length cs ->
  0 < q <= 1 -> thrFactor <= q * q -> 1 <= q * sigmaFactor ->
  auglag (N := RNum mx) maxIterations thrFactor sigmaFactor tolerance f cs solve stop fuel term0 s lambda sigma x = Ret r ->
  let k := length (filter a_step (al_tr r)) in
  (1 <= k)%nat ->
  q ^ 2 * violated cs (al_x r) <= apart lambda ls / sigma ^ 2 * q ^ k /\
  (f (al_x r) - f best) ^ 2 <= 2 * (squares ls + apart lambda ls) * violated cs (al_x r).
Proof. exact rate_ok. Qed.
Print Assumptions C96_rate.

(** From the first iteration on, no inner run ends at a point that violates the constraints
    more than the point it started from; no matter whether the multipliers were moved or the
    penalty parameter was increased. *)
Theorem C96_violation_never_grows :
  forall (mx : R) (St : Type) (thrFactor sigmaFactor tolerance : R) (f : list R -> R) (cs : list (list R -> R))
         (solve : list (aev (RNum mx)) -> St -> list R -> R -> list R -> list R * St) (x lambda : list R) (sigma : R) (s : St)
         (p : nat) best ls k (a : outer (RNum mx) St) x' s',
  convex_problem p f cs -> multipliers p f cs best ls -> exactly p f cs solve ->
  1 < sigmaFactor -> 0 <= thrFactor -> 0 < sigma -> length lambda = length cs ->
  reach (N := RNum mx) thrFactor sigmaFactor tolerance f cs solve
    {| q_x := x : list (RNum mx); q_lambda := lambda : list (RNum mx); q_sigma := (sigma : RNum mx); q_thr := nmax;
       q_last := (f x : RNum mx); q_s := s |} k a ->
  (1 <= k)%nat -> inner (N := RNum mx) solve a x' s' ->
  violated cs x' <= violated cs (q_x a).
Proof.
  intros mx St tf sf tol f cs solve x lambda sigma s p best ls k a x' s' CP MU EX SF TF P L.
  exact (mono_at mx St tf sf tol p f cs best ls solve CP MU EX SF TF x lambda sigma s L P k a x' s').
Qed.
Print Assumptions C96_violation_never_grows.

(** The first iteration is different: started at the solution x = 0 of (x - 3)^2 / 2 subject
    to x = 0, with the default multiplier and penalty parameter, one iteration with an exact
    inner optimizer ends at 3 / 11, which violates the constraint. *)
Theorem C96_solution_kept_refuted :
  exists r,
    auglag (N := RNum 1) 2 (1 / 4) 10 (1 / 1000) dist3 [first] exact_solve (fun _ => false) 1 false tt [0] 10 [0] = Ret r /\
    al_x r = [3 / 11] /\ feasible [first] [0] /\ ~ feasible [first] (al_x r).
Proof.
  unfold auglag. cbn -[Rltb dist3 Rdiv Rabs].
  destruct (Rltb_spec 500000 10) as [B|B]; [exfalso; lra|]. rewrite andb_false_r.
  match goal with |- context [Rltb ?u 1] => destruct (Rltb_spec u 1) as [A|A]; [|exfalso; apply A; unfold first; cbn [hd]; lra] end.
  cbn -[Rdiv]. eexists. split; [reflexivity|]. cbn [al_x].
  assert (E : (3 + 0) / (1 + 10) = 3 / 11) by lra. split; [rewrite E; reflexivity|].
  split; [intros c [<-|[]]; reflexivity|]. intros F. specialize (F first (or_introl eq_refl)). unfold first in F. cbn [hd] in F. lra.
Qed.
Print Assumptions C96_solution_kept_refuted.

(** the hypotheses are met by (x - 3)^2 / 2 subject to x = 0 with the default parameters:
    seven iterations from x = 3 *)
Example C96_example :
  convex_problem 1 dist3 [first] /\ multipliers 1 dist3 [first] [0] [-3] /\
  exactly 1 dist3 [first] (@exact_solve (aev (RNum 1))) /\
  1 / 4 <= 1 / 2 * (1 / 2) /\ 1 <= 1 / 2 * 10 /\
  exists r,
    auglag (N := RNum 1) 8 (1 / 4) 10 (1 / 1000) dist3 [first] exact_solve (fun _ => false) 7 false tt [0] 10 [3] = Ret r /\
    length (filter a_step (al_tr r)) = 7%nat /\ al_x r = [3 / 11 ^ 7].
Proof.
  split; [exact dist3_convex|]. split; [exact dist3_multipliers|]. split; [apply dist3_exactly|].
  split; [lra|]. split; [lra|].
  destruct (silent 1 (1 / 1000) (Rle_refl 1) 7) as (r & E & _ & X & K). exists r. auto.
Qed.
