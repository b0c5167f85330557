(** C77: moving the origin, mirroring coordinates and rescaling the objective. *)
From Coq Require Import List Arith Reals Lra.
From Verif.Base Require Import Num Instances.
From Verif.Model Require Import Sgd Updates.
From Verif.Spec Require Import InvarianceSpec.
From Verif.Proof Require Import InvarianceSgd InvariancePolicies.
Import ListNotations.
Local Open Scope R_scope.

(** If a coordinate-wise policy follows another one for every sequence of gradients, then all of
    SGD does: on x |-> k * f (sg (x - c)), started at the image of the old starting point, it
    returns k times the old value at the image of the old point and shows the callbacks the images
    of what it showed them before.  With k other than 1 the tolerance must be off. *)
Theorem C77_sgd : forall mx (S : Type) (up up' : S -> R -> R -> R -> S * R) s0 (h k : R) (ok : R -> Prop) (eta : R -> R),
  ok h -> follows up up' s0 ok eta k -> 0 < k ->
  forall (sg c : nat -> R) batch max tol shuffle exact (f : SepFun (RNum mx) (list R) (list R)) cb cb',
  (forall i, sg i * sg i = 1) -> k = 1 \/ tol <= 0 -> moved_callbacks sg c k cb cb' ->
  forall fuel x,
  moved_outcome sg c k
    (optimize_with (sgd_cfg batch max tol shuffle exact up) f cb fuel (map (fun _ => s0) x) tt h x)
    (optimize_with (sgd_cfg batch max (k * tol) shuffle exact up') (moved_function sg c k f) cb' fuel
       (map (fun _ => s0) x) tt (eta h) (move sg c x)).
Proof. intros. eapply sgd_moved; eassumption. Qed.
Print Assumptions C77_sgd.

(** Plain, momentum, Nesterov and quasi-hyperbolic steps: the step size makes up for the factor. *)
Theorem C77_momentum : forall mx k, 0 < k ->
  follows (vanilla_up (N := RNum mx)) (vanilla_up (N := RNum mx)) tt (fun _ => True) (fun h => h / k) k /\
  (forall mu, follows (momentum_up (N := RNum mx) mu) (momentum_up (N := RNum mx) mu) 0 (fun _ => True) (fun h => h / k) k) /\
  (forall mu, follows (nesterov_up (N := RNum mx) mu) (nesterov_up (N := RNum mx) mu) 0 (fun _ => True) (fun h => h / k) k) /\
  (forall mu nu, follows (qh_up (N := RNum mx) mu nu) (qh_up (N := RNum mx) mu nu) 0 (fun _ => True) (fun h => h / k) k).
Proof. intros mx k H. exact (conj (vanilla_follows mx k H) (conj (momentum_follows mx k H) (conj (nesterov_follows mx k H) (qh_follows mx k H)))). Qed.
Print Assumptions C77_momentum.

(** Adam and its relatives, AdaGrad and RMSProp: the step size stays; epsilon carries the factor.
    So with a negligible epsilon they do not depend on the scale of the objective. *)
Theorem C77_adam : forall mx (pw : R -> nat -> R) (rpw : R -> R -> R) k eps b1 b2, 0 < k -> 0 < eps ->
  let same := fun h : R => h in let any := fun _ : R => True in
  follows (adam_up (N := RNum mx) pw eps b1 b2) (adam_up (N := RNum mx) pw (k * eps) b1 b2) adam_init any same k /\
  follows (amsgrad_up (N := RNum mx) pw eps b1 b2) (amsgrad_up (N := RNum mx) pw (k * eps) b1 b2) adam_init any same k /\
  follows (adamax_up (N := RNum mx) pw eps b1 b2) (adamax_up (N := RNum mx) pw (k * eps) b1 b2) adam_init any same k /\
  follows (optimistic_up (N := RNum mx) pw eps b1 b2) (optimistic_up (N := RNum mx) pw (k * eps) b1 b2) adam_init any same k /\
  follows (yogi_up (N := RNum mx) eps b1 b2) (yogi_up (N := RNum mx) (k * eps) b1 b2) adam_init any same k /\
  (forall v1 v2, follows (qhadam_up (N := RNum mx) pw eps b1 b2 v1 v2) (qhadam_up (N := RNum mx) pw (k * eps) b1 b2 v1 v2) adam_init any same k) /\
  (forall sd, follows (nadam_up (N := RNum mx) pw rpw eps b1 b2 sd) (nadam_up (N := RNum mx) pw rpw (k * eps) b1 b2 sd) nadam_init any same k) /\
  (forall sd, follows (nadamax_up (N := RNum mx) rpw eps b1 b2 sd) (nadamax_up (N := RNum mx) rpw (k * eps) b1 b2 sd) nadam_init any same k) /\
  follows (adagrad_up (N := RNum mx) eps) (adagrad_up (N := RNum mx) (k * eps)) 0 any same k /\
  (forall alpha, follows (rmsprop_up (N := RNum mx) eps alpha) (rmsprop_up (N := RNum mx) (k * eps) alpha) 0 any same k).
Proof.
  intros mx pw rpw k eps b1 b2 H _ same any.
  exact (conj (adam_follows mx pw k H eps b1 b2) (conj (amsgrad_follows mx pw k H eps b1 b2) (conj (adamax_follows mx pw k H eps b1 b2)
    (conj (optimistic_follows mx pw k H eps b1 b2) (conj (yogi_follows mx k H eps b1 b2) (conj (qhadam_follows mx pw k H eps b1 b2)
    (conj (nadam_follows mx pw rpw k H eps b1 b2) (conj (nadamax_follows mx rpw k H eps b1 b2) (conj (adagrad_follows mx k H eps) (rmsprop_follows mx k H eps)))))))))).
Qed.
Print Assumptions C77_adam.

(** AdaSqrt needs its step size multiplied, AdaBound and AMSBound their final rate divided. *)
Theorem C77_rates : forall mx (pw : R -> nat -> R) k eps, 0 < k -> 0 < eps ->
  follows (adasqrt_up (N := RNum mx) eps) (adasqrt_up (N := RNum mx) (k * k * eps)) (0, 0%nat) (fun _ => True) (fun h => k * h) k /\
  (forall ams lr gamma b1 b2, follows (bound_up (N := RNum mx) pw ams lr gamma eps b1 b2)
     (bound_up (N := RNum mx) pw ams (lr / k) gamma (k * eps) b1 b2) bound_init (fun _ => True) (fun h => h) k).
Proof. intros mx pw k eps H _. split; [exact (adasqrt_follows mx k H eps)|intros; exact (bound_follows mx pw k H ams lr gamma eps b1 b2)]. Qed.
Print Assumptions C77_rates.

(** FTML computes the iterate anew from its sums and still follows. *)
Theorem C77_ftml : forall mx (pw : R -> nat -> R) k eps b1 b2 junk, 0 < k -> 0 < eps -> (forall n, pw b1 n <> 1 \/ n = 0%nat) ->
  follows (ftml_up (N := RNum mx) pw eps b1 b2) (ftml_up (N := RNum mx) pw (k * eps) b1 b2) (ftml_init junk) (fun h => h <> 0) (fun h => h) k.
Proof. intros. now apply ftml_follows. Qed.
Print Assumptions C77_ftml.

(** AdaDelta, SMORMS3, AdaBelief and Padam depend on the scale through epsilon (or the exponent),
    but not on the origin or on signs. *)
Theorem C77_unscaled : forall mx (pw : R -> nat -> R) (rpw : R -> R -> R) eps,
  let same := fun h : R => h in let any := fun _ : R => True in
  (forall rho, follows (adadelta_up (N := RNum mx) rho eps) (adadelta_up (N := RNum mx) rho eps) (0, 0) any same 1) /\
  follows (smorms3_up (N := RNum mx) eps) (smorms3_up (N := RNum mx) eps) smorms_init any same 1 /\
  (forall b1 b2, follows (adabelief_up (N := RNum mx) pw eps b1 b2) (adabelief_up (N := RNum mx) pw eps b1 b2) adam_init any same 1) /\
  (forall b1 b2 p, follows (padam_up (N := RNum mx) pw rpw eps b1 b2 p) (padam_up (N := RNum mx) pw rpw eps b1 b2 p) adam_init any same 1).
Proof.
  intros. exact (conj (fun rho => adadelta_follows mx rho eps) (conj (smorms3_follows mx eps)
    (conj (fun b1 b2 => adabelief_follows mx pw eps b1 b2) (fun b1 b2 p => padam_follows mx pw rpw eps b1 b2 p)))).
Qed.
Print Assumptions C77_unscaled.

(** "DemonSGD does not depend on the origin" is false: it multiplies the iterate by its decay, so
    even with a zero gradient it moves towards the origin. *)
Theorem C77_demon_refuted : forall mx, exists c x0 l,
  snd (run (N := RNum mx) (demon_sgd_up (N := RNum mx) (1 / 2) 10) (tt, 0%nat) (x0 + c) l) <>
  snd (run (N := RNum mx) (demon_sgd_up (N := RNum mx) (1 / 2) 10) (tt, 0%nat) x0 l) + c.
Proof. exact demon_not_follows. Qed.
Print Assumptions C77_demon_refuted.

(** the square function, one iteration of plain SGD from 1 with step size 1/4; mirrored, moved by
    7 and multiplied by 3 *)
Definition silent : Callbacks (RNum 1) (list R) (list R) := {| cb_stop := fun _ => false; cb_grad := fun _ g => g |}.
Definition square : SepFun (RNum 1) (list R) (list R) :=
  Build_SepFun (RNum 1) (list R) (list R) 1 (fun _ x _ _ => match x with a :: _ => a * a | [] => 0 end)
    (fun _ x _ _ => (match x with a :: _ => a * a | [] => 0 end, map (fun a => 2 * a) x)).
Example C77_ex : exists r r',
  optimize_with (sgd_cfg 1 1 0 false false (vanilla_up (N := RNum 1))) square silent 5 [tt] tt (1 / 4) [1] = Return r /\
  r_x r = [1 / 2] /\
  optimize_with (sgd_cfg 1 1 (3 * 0) false false (vanilla_up (N := RNum 1))) (moved_function (fun _ => -1) (fun _ => 7) 3 square) silent 5
    [tt] tt (1 / 4 / 3) (move (fun _ => -1) (fun _ => 7) [1]) = Return r' /\
  r_x r' = [13 / 2].
Proof.
  assert (A : exists r, optimize_with (sgd_cfg 1 1 0 false false (vanilla_up (N := RNum 1))) square silent 5 [tt] tt (1 / 4) [1] = Return r /\ r_x r = [1 / 2]).
  { unfold optimize_with. cbn. match goal with |- context [Rltb ?a ?b] => destruct (Rltb_spec a b) as [L|L] end.
    - exfalso. revert L. apply Rle_not_lt. apply Rabs_pos.
    - eexists. split; [reflexivity|]. cbn. f_equal. lra. }
  destruct A as [r [A B]].
  pose proof (C77_sgd 1 unit (vanilla_up (N := RNum 1)) (vanilla_up (N := RNum 1)) tt (1 / 4) 3 (fun _ => True) (fun h => h / 3)
    Logic.I (proj1 (C77_momentum 1 3 ltac:(lra))) ltac:(lra) (fun _ => -1) (fun _ => 7) 1 1 0 false false square silent silent
    ltac:(intros; lra) ltac:(right; lra) ltac:(split; reflexivity) 5%nat [1]) as M.
  cbn [map] in M. rewrite A in M.
  destruct (optimize_with (sgd_cfg 1 1 (3 * 0) false false (vanilla_up (N := RNum 1))) (moved_function (fun _ => -1) (fun _ => 7) 3 square) silent 5
    [tt] tt (1 / 4 / 3) (move (fun _ => -1) (fun _ => 7) [1])) as [r'| |]; cbn [moved_outcome] in M; try contradiction.
  exists r, r'. split; [exact A|]. split; [exact B|]. split; [reflexivity|].
  destruct M as (_ & M & _). rewrite M, B. unfold move. cbn. f_equal. lra.
Qed.
