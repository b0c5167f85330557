(** C23: the two-loop recursion computes the BFGS inverse-Hessian product. *)
From Coq Require Import List Arith Reals Lra Lia.
From Verif.Base Require Import Num Instances Vec.
From Verif.Model Require Import LBFGS.
From Verif.Spec Require Import LBFGSSpec.
From Verif.Proof Require Import LBFGSProof BFGSProof.
Import ListNotations.
Local Open Scope R_scope.

(** all recorded iterates and gradients have [n] elements *)
Definition all_sized (n : nat) (us : list (list R * list R * (list R * list R))) : Prop :=
  forall x xo g go, In (x, xo, (g, go)) us ->
    length x = n /\ length xo = n /\ length g = n /\ length go = n.
(** differences of every update have curvature y.s >= 0 *)
Definition curved (n : nat) (us : list (list R * list R * (list R * list R))) : Prop :=
  forall x xo g go, In (x, xo, (g, go)) us ->
    0 <= rsum n (fun i => (at_ g i - at_ go i) * (at_ x i - at_ xo i)).

Lemma firstn_In {A} n (l : list A) a : In a (firstn n l) -> In a l.
Proof. intros H. rewrite <- (firstn_skipn n l). apply in_app_iff. left; exact H. Qed.
Lemma memory_sized mx nb n us : all_sized n us ->
  sized n (firstn nb (rev (map (difference (N := RNum mx)) us))).
Proof.
  intros SZ s y I. apply firstn_In in I. apply in_rev in I. apply in_map_iff in I.
  destruct I as ([[x xo] [g go]] & E & I). injection E as <- <-.
  destruct (SZ x xo g go I) as (A & B & C & D). unfold vsub. rewrite !map2_length. cbn [fst snd].
  change (T (RNum mx)) with R in *. lia.
Qed.
Lemma memory_curved mx nb n us : all_sized n us -> curved n us ->
  nonneg_curvature n (firstn nb (rev (map (difference (N := RNum mx)) us))).
Proof.
  intros SZ CU s y I. apply firstn_In in I. apply in_rev in I. apply in_map_iff in I.
  destruct I as ([[x xo] [g go]] & E & I). injection E as <- <-.
  destruct (SZ x xo g go I) as (A & B & C & D). cbn [fst snd].
  apply Rle_trans with (1 := CU x xo g go I). right. apply rsum_ext. intros i Hi.
  unfold vsub. cbn [nsub RNum]. rewrite !at_map2 by lia. reflexivity.
Qed.

(** The direction computed after any history of updates is - H g, where H comes from
    gamma I by the BFGS updates H' = (I - rho s y^T) H (I - rho y s^T) + rho s s^T with
    the numBasis most recent pairs, oldest first. *)
Theorem C23_direction_is_bfgs :
  forall (mx : R) (nb n : nat) us s0 y0 s y (g : list R) (gamma : R),
  (0 < nb)%nat -> length s0 = nb -> length y0 = nb -> all_sized n us -> length g = n ->
  feed (N := RNum mx) (update_basis (N := RNum mx) nb) 0 us s0 y0 = Some (s, y) ->
  exists d, search_direction (N := RNum mx) nb g (length us) gamma s y = Some d /\ length d = n /\
    forall i, (i < n)%nat ->
      at_ d i = - rsum n (fun j =>
        bfgs_inverse n gamma (firstn nb (rev (map (difference (N := RNum mx)) us))) i j * at_ g j).
Proof.
  intros mx nb n us s0 y0 s y g gamma NB A B SZ LG F.
  destruct (updates_then_direction (N := RNum mx) nb NB us s0 y0 A B) as (s1 & y1 & F1 & D & _).
  rewrite F in F1. injection F1 as <- <-. eexists. split; [apply D|].
  apply (direction_product mx n gamma _ g); [apply memory_sized, SZ|exact LG].
Qed.
Print Assumptions C23_direction_is_bfgs.

(** With gamma > 0 and y.s >= 0 for every recorded pair it is a descent direction. *)
Theorem C23_descent :
  forall (mx : R) (nb n : nat) us s0 y0 s y (g : list R) (gamma : R),
  (0 < nb)%nat -> length s0 = nb -> length y0 = nb -> all_sized n us -> length g = n ->
  feed (N := RNum mx) (update_basis (N := RNum mx) nb) 0 us s0 y0 = Some (s, y) ->
  0 < gamma -> curved n us -> (exists i, (i < n)%nat /\ at_ g i <> 0) ->
  exists d, search_direction (N := RNum mx) nb g (length us) gamma s y = Some d /\
    rsum n (fun i => at_ g i * at_ d i) < 0.
Proof.
  intros mx nb n us s0 y0 s y g gamma NB A B SZ LG F G CU NZ.
  destruct (updates_then_direction (N := RNum mx) nb NB us s0 y0 A B) as (s1 & y1 & F1 & D & _).
  rewrite F in F1. injection F1 as <- <-. eexists. split; [apply D|].
  pose proof (memory_sized mx nb n us SZ) as MS.
  pose proof (direction_descent mx n gamma _ g G MS (memory_curved mx nb n us SZ CU) LG NZ) as DD.
  rewrite (vdot_rdot mx n) in DD; [exact DD|exact LG|]. apply (direction_product mx n gamma _ g MS LG).
Qed.
Print Assumptions C23_descent.

(** The matrices are symmetric, positive definite (under the curvature condition) and
    satisfy the secant equation for the newest pair. *)
Theorem C23_bfgs_matrix :
  forall n gamma s y older,
  (forall i j, (i < n)%nat -> (j < n)%nat ->
     bfgs_inverse n gamma ((s, y) :: older) i j = bfgs_inverse n gamma ((s, y) :: older) j i) /\
  (0 < gamma -> (forall s' y', In (s', y') ((s, y) :: older) -> 0 <= rdot n (at_ y') (at_ s')) ->
   forall v, (exists i, (i < n)%nat /\ v i <> 0) ->
     0 < rdot n v (mv n (bfgs_inverse n gamma ((s, y) :: older)) v)) /\
  (rdot n (at_ y) (at_ s) <> 0 ->
   forall i, (i < n)%nat -> mv n (bfgs_inverse n gamma ((s, y) :: older)) (at_ y) i = at_ s i).
Proof.
  intros n gamma s y older. split; [intros; apply bfgs_symmetric; assumption|].
  split; [intros G C; apply bfgs_positive; assumption|intros NE i I; apply update_secant; assumption].
Qed.
Print Assumptions C23_bfgs_matrix.

(** Without the curvature condition the direction may point uphill. *)
Theorem C23_always_descent_refuted :
  exists us s y d,
    feed (N := RNum 1) (update_basis (N := RNum 1) 1) 0 us [[0]] [[0]] = Some (s, y) /\
    search_direction (N := RNum 1) 1 [1] (length us) 1 s y = Some d /\
    0 < vdot (N := RNum 1) [1] d.
Proof.
  exists [([1], [0], ([-1], [0]))].
  destruct (updates_then_direction (N := RNum 1) 1 ltac:(lia) [([1], [0], ([-1], [0]))] [[0]] [[0]] eq_refl eq_refl)
    as (s & y & F & D & _).
  exists s, y. eexists. split; [exact F|]. split; [apply D|].
  cbn. unfold direction, two_loop, curvature_weight, vdot, vsum, vadd, vsub, vscale, vmul. cbn.
  unfold Reqb. destruct (Req_EM_T _ 0) as [E|E]; [exfalso; revert E; lra|].
  replace (0 + (-1 - 0) * (1 - 0)) with (-1) by ring. lra.
Qed.
Print Assumptions C23_always_descent_refuted.

(** the hypotheses are met by three updates in dimension two with memory two *)
Example C23_hypotheses :
  let us := [([1;0], [0;0], ([2;1], [0;0])); ([1;1], [1;0], ([1;2], [2;1])); ([0;1], [1;1], ([0;1], [1;2]))] in
  let z := repeat [0;0] 2 in
  (exists s y, feed (N := RNum 1) (update_basis (N := RNum 1) 2) 0 us z z = Some (s, y)) /\
  all_sized 2 us /\ curved 2 us.
Proof.
  cbv zeta. split; [|split].
  - do 2 eexists. reflexivity.
  - intros x xo g go H. cbn in H. repeat destruct H as [H|H]; try contradiction; injection H as <- <- <- <-; repeat split.
  - intros x xo g go H. cbn in H. repeat destruct H as [H|H]; try contradiction; injection H as <- <- <- <-; cbn; lra.
Qed.
