(** C25: a whole L-BFGS run. *)
From Coq Require Import List Arith Bool ZArith QArith Reals Lra Lia.
From Verif.Base Require Import Num Instances QInst Vec.
From Verif.Model Require Import Common LBFGS.
From Verif.Spec Require Import CommonSpec LBFGSSpec HeardSpec.
From Verif.Proof Require Import LBFGSRun LBFGSEx HeardProof.
Import ListNotations.

(** For every result: the accepted iterates form a legal chain from the start (each one
    reached by a line search along the L-BFGS direction built from the numBasis most
    recent differences of iterates and gradients, none of them stable); StepTaken reports
    exactly these iterates; with maxIterations <> 0 there are at most maxIterations of
    them; the run ends for one of the listed reasons, which fix value and iterate; there
    are at most 1 + (iterations + 1) * max(1, maxLineSearchTrials) reported evaluations;
    EndOptimization comes once, last; after a request to stop at most the current
    iteration is finished. *)
Theorem C25_lbfgs :
  forall (N : Num), OrdLaws N ->
  forall (numBasis maxIterations : nat) (armijo minGradientNorm wolfe factr minStep maxStep : N) (maxTrials : nat)
         (tol : N) (norm2 normF : list N -> N) (f : list N -> N * list N) cb x0 term0 s0 y0 fuel r member,
  (0 < numBasis)%nat -> length s0 = numBasis -> length y0 = numBasis ->
  lbfgs numBasis maxIterations armijo minGradientNorm wolfe factr minStep maxStep maxTrials tol norm2 normF f cb
    fuel term0 s0 y0 x0 = Ret (r, member) ->
  exists before cur,
    let ps := before ++ [cur] in
    hd_error ps = Some {| p_x := x0; p_v := fst (f x0); p_g := cs_grad cb [] x0 (fst (f x0)) (snd (f x0)) |} /\
    legal numBasis armijo minGradientNorm wolfe factr minStep maxStep maxTrials tol norm2 normF f ps /\
    (maxIterations <> 0 -> length before <= maxIterations)%nat /\
    ends numBasis maxIterations armijo minGradientNorm wolfe factr minStep maxStep maxTrials tol norm2 normF f
      ps cur (term0 = true \/ asked cb (o_tr r)) (o_val r) (o_x r) /\
    steps_to (o_tr r) = map p_x (tl ps) /\
    (exists body, o_tr r = first_event f cb x0 :: Begin x0 :: body ++ [End (o_x r)] /\
       forallb (fun e => negb (is_begin e || is_end e)) body = true) /\
    (length (evalgs (o_tr r)) <= 1 + S (length before) * Nat.max 1 maxTrials)%nat /\
    (member = true <-> term0 = true \/ asked cb (o_tr r)) /\
    (forall h e rest, asked_at cb (o_tr r) h e rest -> length (steps_to (e :: rest)) <= 1)%nat /\
    (* value and gradient of an accepted iterate are those of the evaluation before the step *)
    rev (step_grads (rev (o_tr r))) = map (fun p => (p_v p, p_g p)) (tl ps).
Proof.
  intros N O numBasis maxIterations armijo minGradientNorm wolfe factr minStep maxStep maxTrials tol norm2 normF f cb
    x0 term0 s0 y0 fuel r member NB LS LY E.
  pose proof (lbfgs_ok O numBasis maxIterations armijo minGradientNorm wolfe factr minStep maxStep maxTrials tol norm2
    normF f cb NB x0 term0 fuel s0 y0 LS LY) as P. rewrite E in P. exact P.
Qed.
Print Assumptions C25_lbfgs.

(** The gradient the run goes on with is the one the callbacks handed back for the history
    at that point (for example a clipped one). *)
Theorem C25_callbacks_heard :
  forall (N : Num) (numBasis maxIterations : nat) (armijo minGradientNorm wolfe factr minStep maxStep : N) (maxTrials : nat)
         (tol : N) (norm2 normF : list N -> N) (f : list N -> N * list N) cb fuel term0 s0 y0 x0 r,
  lbfgs numBasis maxIterations armijo minGradientNorm wolfe factr minStep maxStep maxTrials tol norm2 normF f cb
    fuel term0 s0 y0 x0 = Ret r -> heard cb (rev (o_tr (fst r))).
Proof. intros. eapply lbfgs_heard_all; eassumption. Qed.
Print Assumptions C25_callbacks_heard.

(** It returns: never an out-of-bounds slice, and with a limit never more than
    maxIterations iterations. *)
Theorem C25_returns :
  forall (N : Num), OrdLaws N ->
  forall (numBasis maxIterations : nat) (armijo minGradientNorm wolfe factr minStep maxStep : N) (maxTrials : nat)
         (tol : N) (norm2 normF : list N -> N) (f : list N -> N * list N) cb x0 term0 s0 y0,
  (0 < numBasis)%nat -> length s0 = numBasis -> length y0 = numBasis -> maxIterations <> 0%nat ->
  exists r member,
  lbfgs numBasis maxIterations armijo minGradientNorm wolfe factr minStep maxStep maxTrials tol norm2 normF f cb
    maxIterations term0 s0 y0 x0 = Ret (r, member).
Proof.
  intros N O numBasis maxIterations armijo minGradientNorm wolfe factr minStep maxStep maxTrials tol norm2 normF f cb
    x0 term0 s0 y0 NB LS LY M.
  pose proof (lbfgs_ok O numBasis maxIterations armijo minGradientNorm wolfe factr minStep maxStep maxTrials tol norm2
    normF f cb NB x0 term0 maxIterations s0 y0 LS LY) as P.
  destruct (lbfgs _ _ _ _ _ _ _ _ _ _ _ _ _ _ _ _ _ _ _) as [[r t]| |]; [eauto|contradiction|].
  exfalso. specialize (P M). lia.
Qed.
Print Assumptions C25_returns.

(** The recorded values strictly decrease along the accepted iterates. *)
Theorem C25_values_decrease :
  forall (mx : R) numBasis armijo minGradientNorm wolfe factr minStep maxStep maxTrials tol norm2 normF f
         (ps : list (@point (RNum mx))) i p q,
  (0 <= factr)%R ->
  legal (N := RNum mx) numBasis armijo minGradientNorm wolfe factr minStep maxStep maxTrials tol norm2 normF f ps ->
  nth_error ps i = Some p -> nth_error ps (S i) = Some q -> (p_v q < p_v p)%R.
Proof. intros. eapply legal_decreasing; eassumption. Qed.
Print Assumptions C25_values_decrease.

(** The member [terminate] is never reset: a second call after a stopped one returns
    the starting point at once, although a fresh optimizer would move. *)
Theorem C25_fresh_call_refuted :
  forall x : list QNum,
  (forall cb r member fuel, lb_Q 10 50 half_square cb fuel true x = Ret (r, member) ->
     o_x r = x /\ o_val r = fst (half_square x) /\ member = true) /\
  (exists r, lb_Q 10 50 half_square stop_at_once 5 false [7%Q] = Ret (r, true)) /\
  (exists r m, lb_Q 10 50 half_square quiet 5 false [7%Q] = Ret (r, m) /\ o_x r = [3%Q]).
Proof.
  intros x. split; [intros; eapply stopped_stays; eassumption|]. split.
  - eexists. vm_compute. reflexivity.
  - do 2 eexists. split; [vm_compute; reflexivity|]. vm_compute. reflexivity.
Qed.
Print Assumptions C25_fresh_call_refuted.

(** The returned value need not be the objective at the returned point, and it may be
    above the objective at the start. *)
Theorem C25_value_at_iterate_refuted :
  exists f r m, lb_Q 10 50 f quiet 5 false [0%Q] = Ret (r, m) /\ o_val r = 6%Q /\ fst (f (o_x r)) = 5%Q.
Proof.
  exists (tbl [(0, (10, -1)); (1, (5, -1)); (21 # 10, (6, 0))]%Q). do 2 eexists.
  split; [vm_compute; reflexivity|]. split; vm_compute; reflexivity.
Qed.
Print Assumptions C25_value_at_iterate_refuted.

Theorem C25_not_worse_than_start_refuted :
  exists f r m, lb_Q 10 1 f quiet 5 false [0%Q] = Ret (r, m) /\ o_val r = 7%Q /\ o_x r = [1%Q] /\
    fst (f [1%Q]) = 7%Q /\ fst (f [0%Q]) = 0%Q.
Proof.
  exists (tbl [(0, (0, -1)); (1, (7, 0))]%Q). do 2 eexists.
  split; [vm_compute; reflexivity|]. repeat split; vm_compute; reflexivity.
Qed.
Print Assumptions C25_not_worse_than_start_refuted.

(** (x - 3)^2 / 2 from 7: three iterations at most, minimum found. *)
Example C25_run :
  match lb_Q 10 50 half_square quiet 5 false [7%Q] with
  | Ret (r, m) => (o_val r, o_x r, length (o_tr r)) = (0%Q, [3%Q], 7%nat)
  | _ => False
  end.
Proof. vm_compute. reflexivity. Qed.
