(** C95: what AugLagrangian returns when the inner optimizer finds minimisers. *)
From Coq Require Import List Arith Bool ZArith Reals Lra Lia.
From Verif.Base Require Import Num Instances Vec.
From Verif.Model Require Import Common AugLag.
From Verif.Spec Require Import AugLagSpec AugOptSpec.
From Verif.Proof Require Import AugLagProof AugOpt AugConvex AugRate.
Import ListNotations.
Local Open Scope R_scope.

(** The call returned true and the inner optimizer minimises the augmented Lagrangian up to
    [eps].  Then Sigma() is above 500000 and, with [l] the vector Lambda() and [sg] the value
    Sigma(), for every feasible [y]: the objective is at most f(y) + eps + |l|^2 / (2 sg);
    the sum of the squared constraints is at most 4 (f(y) - f(x) + eps) / sg + 4 |l|^2 / sg^2;
    and if the constraints hold at the returned point it is a minimum up to [eps]. *)
Theorem C95_returned :
  forall (mx : R) (St : Type) (maxIterations : nat) (thrFactor sigmaFactor tolerance : R) (f : list R -> R)
         (cs : list (list R -> R)) solve stop fuel term0 (s : St) lambda sigma x r (p : nat) (eps : R),
  (length cs <= length lambda)%nat ->
  minimises p eps 500000 f cs solve ->
  auglag (N := RNum mx) maxIterations thrFactor sigmaFactor tolerance f cs solve stop fuel term0 s lambda sigma x = Ret r ->
  al_ret r = true ->
  exists l sg, al_members r = Some (l, sg) /\ 500000 < sg /\
    forall y, length y = p -> feasible cs y ->
      f (al_x r) <= f y + eps + squares l / (2 * sg) /\
      violated cs (al_x r) <= 4 / sg * (f y - f (al_x r) + eps) + 4 * squares l / sg ^ 2 /\
      (feasible cs (al_x r) -> f (al_x r) <= f y + eps).
Proof. exact returned_ok. Qed.
Print Assumptions C95_returned.

(** Convex objective, affine constraints, optimal multipliers [ls] for the solution [best], an
    exact inner optimizer.  Then on success Lambda() is no further from [ls] than the first
    multipliers, and the bounds depend only on the problem and on where the multipliers
    started: the sum V of the squared constraints is at most |lambda - ls|^2 / Sigma()^2, with
    Sigma() > 500000, and the square of the difference to the optimal objective is at most
    2 (|ls|^2 + |lambda - ls|^2) V. *)
Theorem C95_convex :
  forall (mx : R) (St : Type) (maxIterations : nat) (thrFactor sigmaFactor tolerance : R) (f : list R -> R)
         (cs : list (list R -> R)) solve stop fuel term0 (s : St) lambda sigma x r (p : nat) best ls,
  convex_problem p f cs -> multipliers p f cs best ls -> exactly p f cs solve -> 0 < sigmaFactor -> 0 < sigma ->
  length lambda = length cs ->
  auglag (N := RNum mx) maxIterations thrFactor sigmaFactor tolerance f cs solve stop fuel term0 s lambda sigma x = Ret r ->
  al_ret r = true ->
  exists l sg, al_members r = Some (l, sg) /\ 500000 < sg /\ apart l ls <= apart lambda ls /\
    violated cs (al_x r) <= apart lambda ls / sg ^ 2 /\
    (f (al_x r) - f best) ^ 2 <= 2 * (squares ls + apart lambda ls) * violated cs (al_x r).
Proof. exact success_ok. Qed.
Print Assumptions C95_convex.

(** An exact inner optimizer is not enough for the call to report success, and nor is
    convergence.  On (x - 3)^2 / 2 subject to x = 0, from x = 3 with the default parameters
    (first multiplier 0, penalty 10, factors 1/4 and 10), the iterates over the reals are
    3 / 11^k: every violation is below the threshold, so the penalty parameter stays 10, the
    test for more than 500000 never passes and the call returns false however many
    iterations it may use and whatever the tolerance. *)
Theorem C95_success_reported_refuted :
  (forall (E : Type) least, 0 <= least -> minimises 1 0 least dist3 [first] (@exact_solve E)) /\
  (forall mx tolerance m, 1 <= mx -> exists r,
     auglag (N := RNum mx) (S m) (1 / 4) 10 tolerance dist3 [first] exact_solve (fun _ => false) m false tt [0] 10 [3] = Ret r /\
     al_ret r = false /\ al_x r = [3 / 11 ^ m] /\ length (filter a_step (al_tr r)) = m).
Proof. split; [exact exact_minimises|]. intros mx tol m B. exact (silent mx tol B m). Qed.
Print Assumptions C95_success_reported_refuted.

(** the hypotheses of [C95_returned] and [C95_convex] are met: the same problem, started with penalty
    parameter 1000000 and tolerance 1, returns true after one inner run from x = 0 *)
Example C95_example :
  minimises 1 0 500000 dist3 [first] (@exact_solve (aev (RNum 1))) /\
  (exists y : list R, length y = 1%nat /\ feasible [first] y) /\
  convex_problem 1 dist3 [first] /\ multipliers 1 dist3 [first] [0] [-3] /\
  exactly 1 dist3 [first] (@exact_solve (aev (RNum 1))) /\
  exists r, auglag (N := RNum 1) 5 (1 / 4) 10 1 dist3 [first] exact_solve (fun _ => false) 5 false tt [0] 1000000 [0] = Ret r /\
    al_ret r = true /\ al_x r = [(3 + 0) / (1 + 1000000)] /\ al_members r = Some ([0], 1000000).
Proof.
  split; [apply exact_minimises; lra|]. split.
  { exists [0]. split; [reflexivity|]. intros c [<-|[]]. reflexivity. }
  split; [exact dist3_convex|]. split; [exact dist3_multipliers|]. split; [apply dist3_exactly|].
  unfold auglag. cbn -[Rltb dist3 Rdiv]. 
  match goal with |- context [Rltb (Rabs ?e) 1] => destruct (Rltb_spec (Rabs e) 1) as [A|A] end.
  - destruct (Rltb_spec 500000 1000000) as [B|B]; [|exfalso; lra]. cbn. eexists. repeat split.
  - exfalso. apply A. unfold dist3, first. cbn [hd]. apply Rabs_def1; lra.
Qed.
