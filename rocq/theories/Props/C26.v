(** C26: the augmented Lagrangian. *)
From Coq Require Import List Arith Bool ZArith QArith Reals Lra Lia.
From Verif.Base Require Import Num Instances QInst Vec.
From Verif.Model Require Import Common LBFGS AugLag.
From Verif.Spec Require Import Gradient AugLagSpec.
From Verif.Proof Require Import LBFGSEx AugLagProof AugLagValue.
Import ListNotations.

(** Evaluate() is f - sum lambda_i c_i + sigma / 2 sum c_i^2; it reads a multiplier that
    is not there exactly when there are fewer multipliers than constraints. *)
Theorem C26_evaluate :
  forall (mx : R) (f : list R -> R) (cs : list (list R -> R)) (lambda : list R) (sigma : R) (x : list R),
  ((length cs <= length lambda)%nat ->
     aug_evaluate (N := RNum mx) f cs lambda sigma x = Some (augmented f cs lambda sigma x)) /\
  ((length lambda < length cs)%nat -> aug_evaluate (N := RNum mx) f cs lambda sigma x = None).
Proof. intros. split; [apply (aug_terms_ok mx)|apply (aug_terms_short mx)]. Qed.
Print Assumptions C26_evaluate.

(** Gradient() is the gradient of that function, if the gradients of the objective and of
    the constraints are right. *)
Theorem C26_gradient :
  forall (mx : R) f fg (cs : list ((list R -> R) * (list R -> list R))) (lambda : list R) (sigma : R) (x : list R),
  (length cs <= length lambda)%nat ->
  gradient_at f x (fg x) -> (forall c cg, In (c, cg) cs -> gradient_at c x (cg x)) ->
  exists g, aug_gradient (N := RNum mx) fg cs lambda sigma x = Some g /\
            gradient_at (augmented f (map fst cs) lambda sigma) x g.
Proof. intros mx f fg cs lambda sigma x L G H. exact (aug_grad_ok mx sigma x cs lambda f (fg x) L H G). Qed.
Print Assumptions C26_gradient.

(** Optimize(): [k] outer iterations happen, each an inner run followed either by a move
    of every multiplier (penalty parameter untouched) or by a larger penalty parameter
    (multipliers untouched), as the violation is below the threshold or not; the call ends
    as [Ends] says, in particular it returns true only after the convergence test, and
    only then are the multipliers and the penalty parameter stored; StepTaken is reported
    once per complete iteration; EndOptimization comes once, last. *)
Theorem C26_optimize :
  forall (N : Num) (St : Type) (maxIterations : nat) (thrFactor sigmaFactor tolerance : N) (f : list N -> N)
         (cs : list (list N -> N)) solve stop fuel term0 (s : St) lambda sigma x r,
  (length cs <= length lambda)%nat ->
  auglag maxIterations thrFactor sigmaFactor tolerance f cs solve stop fuel term0 s lambda sigma x = Ret r ->
  (al_term r = true <-> term0 = true \/ a_asked stop (al_tr r)) /\
  (exists body, al_tr r = body ++ [AEnd (al_x r)] /\ forallb (fun e => negb (a_end e)) body = true) /\
  exists k a,
    reach thrFactor sigmaFactor tolerance f cs solve
      {| q_x := x; q_lambda := lambda; q_sigma := sigma; q_thr := nmax; q_last := f x; q_s := s |} k a /\
    (k <= al_limit maxIterations)%nat /\ length (filter a_step (al_tr r)) = k /\
    Ends sigmaFactor tolerance f cs solve maxIterations k a r.
Proof.
  intros N St maxIterations thrFactor sigmaFactor tolerance f cs solve stop fuel term0 s lambda sigma x r L E.
  pose proof (auglag_ok maxIterations thrFactor sigmaFactor tolerance f cs solve stop fuel term0 s lambda sigma x L) as P.
  rewrite E in P. exact P.
Qed.
Print Assumptions C26_optimize.

(** It returns: with enough multipliers nothing is read outside the multiplier vector and
    with a limit there are at most maxIterations - 1 outer iterations. *)
Theorem C26_returns :
  forall (N : Num) (St : Type) (maxIterations : nat) (thrFactor sigmaFactor tolerance : N) (f : list N -> N)
         (cs : list (list N -> N)) solve stop term0 (s : St) lambda sigma x,
  (length cs <= length lambda)%nat ->
  exists r, auglag (S maxIterations) thrFactor sigmaFactor tolerance f cs solve stop maxIterations term0 s lambda sigma x
            = Ret r.
Proof.
  intros N St maxIterations thrFactor sigmaFactor tolerance f cs solve stop term0 s lambda sigma x L.
  pose proof (auglag_ok (S maxIterations) thrFactor sigmaFactor tolerance f cs solve stop maxIterations term0 s lambda
    sigma x L) as P.
  destruct (auglag _ _ _ _ _ _ _ _ _ _ _ _ _ _) as [r| |]; [eauto|contradiction|]. cbn in P. lia.
Qed.
Print Assumptions C26_returns.

(** ** A problem: (x - 3)^2 / 2 subject to x = 0, inner optimizer L-BFGS *)
Local Open Scope Q_scope.
Definition at0 (x : list QNum) : QNum := match x with [q] => q | _ => 0 end.
Definition aug_fn (lambda : list QNum) (sigma : QNum) (x : list QNum) : QNum * list QNum :=
  match aug_evaluate (fun y => fst (half_square y)) [at0] lambda sigma x,
        aug_gradient (fun y => snd (half_square y)) [(at0, fun _ => [1 : QNum])] lambda sigma x with
  | Some v, Some g => (v, g) | _, _ => (0, []) end.
Definition inner_Q (cb : CB QNum (list QNum) (list QNum)) (h : list (aev QNum)) (term : bool) (lambda : list QNum)
    (sigma : QNum) (x : list QNum) : list QNum * bool :=
  match lb_Q 10 50 (aug_fn lambda sigma) cb 12 term x with Ret (r, m) => (o_x r, m) | _ => (x, term) end.
Definition al_Q (maxIterations : nat) cb stop (term : bool) (x : list QNum) :=
  auglag (N := QNum) maxIterations (1 # 4) (inject_Z 10) (1 # 1000000) (fun y => fst (half_square y)) [at0]
    (inner_Q cb) stop 30 term false [0] (inject_Z 10) x.

(* evaluates the call once *)
Lemma returns {A : Type} (o : outc A) (P : A -> Prop) : match o with Ret r => P r | _ => False end -> exists r, o = Ret r /\ P r.
Proof. destruct o as [r| |]; intros H; try contradiction. exists r. split; [reflexivity|exact H]. Qed.

(** The documented convergence test does not look at the constraints.  A request to stop
    made to the inner optimizer is not a request to stop: the inner optimizer stays
    stopped, the coordinates never move and the method reports success at a point that
    violates the constraint. *)
Theorem C26_true_means_feasible_refuted :
  exists r, al_Q 100 stop_at_once (fun _ => false) false [7 : QNum] = Ret r /\
    al_ret r = true /\ al_x r = [7 : QNum] /\ at0 (al_x r) = 7.
Proof. apply returns. vm_compute. auto. Qed.
Print Assumptions C26_true_means_feasible_refuted.

(** Callbacks are shown the square of a constraint while the penalty is computed and the
    constraint itself while the multipliers are updated. *)
Theorem C26_constraint_callback_refuted :
  exists r v w, al_Q 2 stop_at_once (fun _ => false) false [7 : QNum] = Ret r /\
    In (ACon [7 : QNum] 0 v) (al_tr r) /\ In (ACon [7 : QNum] 0 w) (al_tr r) /\ v = 49 /\ w = 7.
Proof.
  destruct (returns (al_Q 2 stop_at_once (fun _ => false) false [7 : QNum])
    (fun r => nth_error (al_tr r) 0 = Some (ACon [7 : QNum] 0 (49 : QNum)) /\ nth_error (al_tr r) 5 = Some (ACon [7 : QNum] 0 (7 : QNum)))) as (r & E & A & B).
  { vm_compute. split; reflexivity. }
  apply nth_error_In in A, B.
  exists r, 49, 7. repeat split; assumption.
Qed.
Print Assumptions C26_constraint_callback_refuted.

(** maxIterations = 1 allows no iteration at all, and a call that was asked to stop leaves
    an optimizer that does nothing. *)
Theorem C26_iterations_refuted :
  (exists r, al_Q 1 quiet (fun _ => false) false [7 : QNum] = Ret r /\ al_ret r = false /\ al_x r = [7 : QNum]) /\
  (exists r, al_Q 100 quiet (fun _ => false) true [7 : QNum] = Ret r /\ al_ret r = false /\ al_x r = [7 : QNum]).
Proof. split; apply returns; vm_compute; auto. Qed.
Print Assumptions C26_iterations_refuted.

(** the second overload keeps using stored multipliers *)
Example C26_stored_multipliers :
  match auglag_default (N := QNum) 2 (1 # 4) (inject_Z 10) (1 # 1000000) (fun y => fst (half_square y)) [at0]
    (inner_Q quiet) (fun _ => false) 30 false false [-3] (inject_Z 20) [7 : QNum] with
  | Ret r => (al_sigma r, al_x r) = (inject_Z 20, [0 : QNum])
  | _ => False
  end.
Proof. vm_compute. reflexivity. Qed.

(** three iterations from 7: x approaches 0, the multiplier approaches -3 *)
Example C26_run :
  match al_Q 4 quiet (fun _ => false) false [7 : QNum] with
  | Ret r => (al_ret r, length (filter a_step (al_tr r))) = (false, 3%nat) /\
             nlt (n := QNum) (nabs (n := QNum) (at0 (al_x r))) (1 # 100) = true /\
             al_lambda r <> [0]
  | _ => False
  end.
Proof. vm_compute. repeat split; discriminate. Qed.

(** the hypotheses of [C26_gradient] are met: f(x) = x0 + x1, c(x) = x0 *)
Example C26_gradient_case :
  gradient_at (fun y => match y with a :: b :: _ => (a + b)%R | _ => 0%R end) [1; 2]%R [1; 1]%R /\
  gradient_at (fun y => match y with a :: _ => a | _ => 0%R end) [1; 2]%R [1; 0]%R.
Proof.
  split; (split; [reflexivity|]); intros [|d [|e [|]]] D; try discriminate; cbn; intros eps P;
    exists (mkposreal 1 Rlt_0_1); intros h NZ _.
  - replace ((1 + (0 + h) * d + (2 + (0 + h) * e) - (1 + 0 * d + (2 + 0 * e))) / h - (1 * d + (1 * e + 0)))%R with 0%R
      by (field; exact NZ). rewrite Rabs_R0. exact P.
  - replace ((1 + (0 + h) * d - (1 + 0 * d)) / h - (1 * d + (0 * e + 0)))%R with 0%R by (field; exact NZ).
    rewrite Rabs_R0. exact P.
Qed.
