From Coq Require Import List Arith Bool Lia ZArith Reals Lra.
From Verif.Base Require Import Num Vec Instances.
From Verif.Model Require Import Sgd Schedules.
From Verif.Spec Require Import SgdSpec SchedulesSpec.
From Verif.Proof Require Import SgdProof SgdMore SchedulesProof.
Import ListNotations.

Lemma phases : forall (mul : nat -> nat) (t0 n : nat), (forall j, 1 <= period mul t0 j) ->
  exists! k, phase_start mul t0 k <= n <= mark mul t0 k + 1.
Proof.
  intros mul t0 n PP. destruct (cyc_inv (N := ZNum) mul t0 (fun z => z) 0%Z 0%Z 0%Z PP 0%Z n) as (k & L & _).
  exists k. split; [exact L|]. intros k' L'. eapply (phase_unique mul t0); eauto.
Qed.

Lemma restart_R : forall (mx : R) (mul : nat -> nat) (t0 : nat) (c eb step : R) (k : nat),
  (forall j, 1 <= period mul t0 j)%nat -> (period mul t0 (S k) <= mark mul t0 k + 2)%nat ->
  snd (cyc_after (N := RNum mx) mul cos PI c eb t0 step (mark mul t0 k + 3)) = c.
Proof.
  intros mx mul t0 c eb step k PP L.
  replace (mark mul t0 k + 3)%nat with (S (mark mul t0 k + 2)) by lia.
  rewrite (schedule (N := RNum mx) mul t0 cos PI c eb PP step (S k)).
  2:{ cbn [phase_start mark]. pose proof (PP (S k)). lia. }
  destruct (Nat.leb_spec (period mul t0 (S k)) (mark mul t0 k + 2)); [|lia].
  replace (mark mul t0 k + 2 - Nat.max (phase_start mul t0 (S k)) (period mul t0 (S k)))%nat with 0%nat
    by (cbn [phase_start]; lia).
  apply cosine_zero.
Qed.
Lemma restart_const : forall (mx : R) (t0 : nat) (c eb step : R) (k : nat), (1 <= t0)%nat ->
  snd (cyc_after (N := RNum mx) (fun t => t) cos PI c eb t0 step (mark (fun t => t) t0 k + 3)) = c.
Proof.
  intros mx t0 c eb step k L.
  assert (PE : forall j, period (fun t => t) t0 j = t0) by (induction j; [reflexivity|]; simpl; assumption).
  apply restart_R.
  - intros j. rewrite PE. exact L.
  - rewrite PE. pose proof (mark_le (fun t => t) t0 0 k ltac:(lia)). simpl in *. lia.
Qed.

Section Ref.
  Variable mx : R.
  Local Open Scope R_scope.
  Lemma cosine_one : cosine_step (N := RNum mx) cos PI 1 1 1 = 0.
  Proof.
    unfold cosine_step, nofnat. cbn. change (@eq R (1 / 2 * 1 * (1 + cos (1 / 1 * PI))) 0).
    replace (1 / 1 * PI) with PI by field. rewrite cos_PI. lra.
  Qed.
  Lemma cosine_two : cosine_step (N := RNum mx) cos PI 1 1 2 = 1.
  Proof.
    unfold cosine_step, nofnat. cbn. change (@eq R (1 / 2 * 1 * (1 + cos (2 / 1 * PI))) 1).
    replace (2 / 1 * PI) with (2 * PI) by field. rewrite cos_2PI. lra.
  Qed.
  Lemma restart_refuted : exists (t0 : nat) (c eb step : R) (k : nat), (0 < c)%R /\
    snd (cyc_after (N := RNum mx) (fun t => 2 * t)%nat cos PI c eb t0 step (mark (fun t => 2 * t)%nat t0 k + 3)) = 0%R.
  Proof.
    exists 5%nat, 1, 1, 1, 0%nat. split; [lra|]. cbn [mark Nat.add]. cbn [cyc_after cyc_init cyc_update cy_restart cy_next cy_batch cy_epoch Nat.leb Nat.ltb Nat.mul Nat.add snd fst].
    unfold cyc_update. cbn. exact cosine_one.
  Qed.
  Lemma rises_refuted : exists (t0 : nat) (c eb step : R) (k n : nat), (0 < c)%R /\
    (phase_start (fun t => t) t0 k <= n)%nat /\ (n + 1 <= mark (fun t => t) t0 k + 1)%nat /\
    (snd (cyc_after (N := RNum mx) (fun t => t) cos PI c eb t0 step (S n)) <
     snd (cyc_after (N := RNum mx) (fun t => t) cos PI c eb t0 step (S (S n))))%R.
  Proof.
    exists 5%nat, 1, 1, 1, 1%nat, 8%nat. split; [lra|]. split; [simpl; lia|]. split; [simpl; lia|].
    assert (PP : forall j, (1 <= period (fun t => t) 5 j)%nat) by (induction j; simpl; [lia|assumption]).
    rewrite (schedule (N := RNum mx) (fun t => t) 5 cos PI 1 1 PP 1 1 9) by (simpl; lia).
    rewrite (schedule (N := RNum mx) (fun t => t) 5 cos PI 1 1 PP 1 1 8) by (simpl; lia).
    change (cosine_step (N := RNum mx) cos PI 1 1 1 < cosine_step (N := RNum mx) cos PI 1 1 2).
    rewrite cosine_one, cosine_two. lra.
  Qed.
End Ref.

Lemma cyc_in_sgd :
  forall (N : Num) (X G U : Type) (mul : nat -> nat) (t0 : nat) (cosf : N -> N) (pi h0 eb : N)
         (c : Cfg N X G U cyc) (f : SepFun N X G) (cb : Callbacks N X G)
         (fuel : nat) (u : U) (step : N) (x : X) (r : res N X G U cyc),
  0 < sf_num f -> 0 < c_batch c -> c_dp c = cyc_dp mul cosf pi h0 eb ->
  optimize_with c f cb fuel u (cyc_init t0) step x = Return r ->
  r_step r = snd (cyc_after mul cosf pi h0 eb t0 step (length (step_points (r_trace r)))).
Proof.
  intros N X G U mul t0 cosf pi h0 eb c f cb fuel u step x r Hn Hb DP H.
  pose proof (c63 c f cb x u _ step fuel Hn Hb r H) as M. rewrite DP in M.
  apply cyc_moved in M. rewrite rev_involutive in M. rewrite <- M. reflexivity.
Qed.

Section Mean.
  Context {N : Num} {G U : Type}.
  Lemma sum_functions_fold : forall (f : SepFun N (list N) G) shuf x k i acc,
    sum_functions f shuf x i k acc = fold_left (fun a j => nadd a (sf_eval f shuf x j 1)) (seq i k) acc.
  Proof. induction k as [|k IH]; intros i acc; [reflexivity|]. simpl. apply IH. Qed.
  Lemma vadd_all : forall (l : list (list N)) x n, length x = n -> (forall z, In z l -> length z = n) ->
    length (fold_left vadd l x) = n /\
    forall i a, nth_error x i = Some a ->
      nth_error (fold_left vadd l x) i = Some (fold_left (fun acc z => nadd acc (nth i z n0)) l a).
  Proof.
    induction l as [|z l IH]; intros x n Lx L; [split; [exact Lx|auto]|].
    cbn [fold_left].
    assert (Lz : length z = n) by (apply L; left; reflexivity).
    assert (L1 : length (vadd x z) = n).
    { unfold vadd. rewrite map2_length. lia. }
    destruct (IH (vadd x z) n L1 (fun w I => L w (or_intror I))) as [A B]. split; [exact A|].
    intros i a E. apply B. unfold vadd. rewrite nth_error_map2, E.
    assert (I : i < length z).
    { rewrite Lz, <- Lx. apply nth_error_Some. congruence. }
    rewrite (nth_error_nth' z n0 I). reflexivity.
  Qed.
  Lemma shuf_count : forall (tr : list (event N (list N) G)),
    length (filter (fun e => match e with Shuffled => true | _ => false end) tr) = count_shuffles tr.
  Proof. induction tr as [|e tr IH]; [reflexivity|]. destruct e; simpl; auto. Qed.
  Lemma snapshot_mean :
    forall (c : Cfg N (list N) G U (cyc * list (list N))) (f : SepFun N (list N) G)
           (cb : Callbacks N (list N) G) (accumulate : bool) (fuel : nat) (u : U) (d : cyc * list (list N)) (step : N)
           (x : list N) (v : N) (y : list N) (r : res N (list N) G U (cyc * list (list N))),
    snapshot_optimize c f cb accumulate fuel u d step x = Return (v, y, r) ->
    optimize_with c f cb fuel u d step x = Return r /\
    if accumulate then
      (forall n, (forall z, In z (r_x r :: snd (r_d r)) -> length z = n) ->
        length y = n /\
        forall i, i < n -> exists a s, nth_error y i = Some (ndiv s (nofnat (S (length (snd (r_d r)))))) /\
          nth_error (r_x r) i = Some a /\
          s = fold_left (fun acc z => nadd acc (nth i z n0)) (snd (r_d r)) a) /\
      v = fold_left (fun acc i => nadd acc (sf_eval f (count_shuffles (r_trace r)) y i 1)) (seq 0 (sf_num f)) n0
    else v = r_val r /\ y = r_x r.
  Proof.
    intros c f cb accumulate fuel u d step x v y r. unfold snapshot_optimize.
    destruct (optimize_with c f cb fuel u d step x) as [r0| |]; try discriminate.
    destruct accumulate; intros E; injection E as <- <- <-; (split; [reflexivity|]).
    2:{ split; reflexivity. }
    split.
    - intros n L. unfold mean_iterate. rewrite map_length.
      destruct (vadd_all (snd (r_d r0)) (r_x r0) n (L _ (or_introl eq_refl)) (fun z I => L z (or_intror I))) as [A B].
      split; [exact A|]. intros i I.
      destruct (nth_error (r_x r0) i) as [a|] eqn:Ea.
      2:{ apply nth_error_None in Ea. rewrite (L (r_x r0) (or_introl eq_refl)) in Ea. lia. }
      exists a, (fold_left (fun acc z => nadd acc (nth i z n0)) (snd (r_d r0)) a).
      split; [|split; reflexivity]. rewrite nth_error_map, (B i a Ea), Nat.add_1_r. reflexivity.
    - rewrite sum_functions_fold, shuf_count. reflexivity.
  Qed.
End Mean.
