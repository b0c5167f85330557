(** C62: FTML and the Demon updates, in exact arithmetic. *)
From Coq Require Import List Reals Lra Lia.
From Verif.Base Require Import Num Instances.
From Verif.Model Require Import Updates DemonSchedule.
From Verif.Spec Require Import UpdatesSpec.
From Verif.Proof Require Import UpdatesProof AdamProof BoundProof DemonProof.
Import ListNotations.
Local Open Scope R_scope.

(** When the iteration counter happens to start at 0, FTML follows the moving
    leader: after every history the iterate minimises the discounted, proximally
    regularised sum of all linearised losses (see Spec/UpdatesSpec.v). *)
Theorem C62_ftml_follows_the_leader :
  forall mx eps b1 b2, 0 <= b1 < 1 -> 0 <= b2 < 1 -> 0 < eps ->
  forall (x0 : R) (l : list (R * R)) (h g : R), 0 < h ->
  let xs := fun l => snd (run (N := RNum mx) (ftml_up (N := RNum mx) pow eps b1 b2) (ftml_init 0) x0 l) in
  let H := l ++ [(h, g)] in
  forall y, ftml_leader_obj eps b1 b2 xs (rev H) (xs H) <= ftml_leader_obj eps b1 b2 xs (rev H) y.
Proof. intros. apply ftml_leader; auto. Qed.
Print Assumptions C62_ftml_follows_the_leader.

(** But the counter is never initialised, and the result depends on it: the same
    single update gives different iterates for different initial memory. *)
Theorem C62_ftml_counter_initialised_refuted :
  exists (j1 j2 : nat) (eps b1 b2 x h g : R),
    0 <= b1 < 1 /\ 0 <= b2 < 1 /\ 0 < eps /\ 0 < h /\
    snd (ftml_up (N := RNum 0) pow eps b1 b2 (ftml_init j1) x h g) <>
    snd (ftml_up (N := RNum 0) pow eps b1 b2 (ftml_init j2) x h g).
Proof.
  exists 0%nat, 1%nat, 1, (1/2), 0, 0, 1, 1.
  split; [lra|split; [lra|split; [lra|split; [lra|]]]].
  unfold ftml_up, ftml_init. cbn -[sqrt].
  match goal with |- ?a <> ?b => change (@eq R a b -> False) end.
  replace ((0 * 0 + (1 - 0) * (1 * 1)) / (1 - 0 * 1)) with 1 by field.
  replace ((0 * 0 + (1 - 0) * (1 * 1)) / (1 - 0 * (0 * 1))) with 1 by field.
  rewrite sqrt_1. intros E. field_simplify in E. lra.
Qed.
Print Assumptions C62_ftml_counter_initialised_refuted.

(** Demon's coefficient starts at its initial value, never increases, stays in
    [0, initial] and reaches 0 after momentumIterations updates. *)
Theorem C62_demon_coefficient :
  forall mx b (n : nat), (0 < n)%nat -> 0 <= b < 1 ->
  let beta := demon_beta (N := RNum mx) b n in
  beta 0%nat = b /\ beta n = 0 /\
  (forall t, (t <= n)%nat -> 0 <= beta t <= b) /\
  (forall t, (t < n)%nat -> beta (S t) <= beta t).
Proof. exact demon_range. Qed.
Print Assumptions C62_demon_coefficient.

(** After momentumIterations updates the coefficient leaves [0, initial] (the
    counter keeps running), so the bound does not hold for every update. *)
Theorem C62_demon_range_always_refuted :
  exists (b : R) (n t : nat), (0 < n)%nat /\ 0 <= b < 1 /\ demon_beta (N := RNum 0) b n t < 0.
Proof.
  exists (1/4), 1%nat, 2%nat. split; [lia|]. split; [lra|].
  rewrite demon_beta_R by lia. simpl.
  replace (1 / 4 * (1 - (1 + 1) / 1) / (1 - 1 / 4 + 1 / 4 * (1 - (1 + 1) / 1))) with (- / 2) by field. lra.
Qed.
Print Assumptions C62_demon_range_always_refuted.

(** DemonSGD and DemonAdam hand their update the number of iterations
    maxIterations * batchSize (Model/DemonSchedule.v), and a run makes at most maxIterations
    updates (C02: it visits at most maxIterations functions, at least one per update).  So
    with batches of two or more functions the coefficient hardly decays: through the whole
    run it stays above the value for the decay rate 1 - 1/batchSize. *)
Theorem C62_demon_schedule :
  forall mx b (maxIterations batchSize t : nat),
  (0 < maxIterations)%nat -> (2 <= batchSize)%nat -> 0 < b < 1 -> (t <= maxIterations)%nat ->
  let rate := 1 - / INR batchSize in
  0 < b * rate / ((1 - b) + b * rate)
    <= demon_beta (N := RNum mx) b (demon_iterations maxIterations batchSize) t.
Proof. exact demon_schedule. Qed.
Print Assumptions C62_demon_schedule.

(* with the default momentum 0.9 and batch size 32 the coefficient never falls below 0.897 *)
Example C62_demon_default : forall mx m t, (0 < m)%nat -> (t <= m)%nat ->
  897 / 1000 <= demon_beta (N := RNum mx) (9 / 10) (demon_iterations m 32) t.
Proof. exact demon_default. Qed.

(** The momentum of a run with the constructor's own schedule does not reach 0 at its last
    update. *)
Theorem C62_demon_reaches_zero_refuted :
  ~ (forall mx b maxIterations batchSize, (0 < maxIterations)%nat -> (0 < batchSize)%nat -> 0 < b < 1 ->
     demon_beta (N := RNum mx) b (demon_iterations maxIterations batchSize) maxIterations = 0).
Proof. exact demon_not_zero. Qed.
Print Assumptions C62_demon_reaches_zero_refuted.

(** The coefficient multiplies the iterate, not a momentum buffer: with a zero
    gradient DemonSGD still moves the iterate. *)
Theorem C62_demon_is_momentum_refuted :
  exists (b : R) (n : nat) (x : R), 0 <= b < 1 /\ (0 < n)%nat /\
    snd (demon_sgd_up (N := RNum 0) b n (tt, 0%nat) x 1 0) <> x.
Proof.
  exists (1/2), 10%nat, 8. split; [lra|split; [lia|]].
  unfold demon_sgd_up, demon_up, vanilla_up, demon_beta. cbn.
  match goal with |- ?a <> ?b => change (@eq R a b -> False) end. intros E. lra.
Qed.
Print Assumptions C62_demon_is_momentum_refuted.

(* the first update from 0 with gradient 1 and step 1 goes to -1/2 *)
Example C62_ftml_first : forall mx,
  snd (run (N := RNum mx) (ftml_up (N := RNum mx) pow 1 (1/2) 0) (ftml_init 0) 0 [(1, 1)]) = -1/2.
Proof.
  intros mx. unfold run, ftml_up, ftml_init. cbn -[sqrt]. eqR.
  replace ((0 * 0 + (1 - 0) * (1 * 1)) / (1 - 0 * 1)) with 1 by field. rewrite sqrt_1. field.
Qed.
