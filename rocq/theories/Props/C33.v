(** C33: AdaBound ([ams] = false) and AMSBound ([ams] = true), in exact arithmetic. *)
From Coq Require Import List Reals Lra.
From Verif.Base Require Import Num Instances.
From Verif.Model Require Import Updates.
From Verif.Spec Require Import UpdatesSpec.
From Verif.Proof Require Import UpdatesProof AdamProof BoundProof.
Import ListNotations.
Local Open Scope R_scope.

(** Every update multiplies the first moment by a rate between the two bounds; it is
    Adam's (AMSGrad's) rate whenever that one lies between them. *)
Theorem C33_rate_is_clipped :
  forall mx finalLr gamma eps b1 b2 (ams : bool), 0 <= b2 < 1 ->
  forall (x : R) (l : list (R * R)) (h g : R),
  let H := l ++ [(h, g)] in
  0 <= finalLr -> 0 < gamma -> 0 <= h -> 0 < first_step H ->
  let xs := fun l => snd (run (N := RNum mx) (bound_up (N := RNum mx) pow ams finalLr gamma eps b1 b2) bound_init x l) in
  let fl := finalLr * h / first_step H in
  let n := INR (length H) in
  let lower := fl * (1 - 1 / (gamma * n + 1)) in
  let upper := fl * (1 + 1 / (gamma * n)) in
  let adam_rate := h * sqrt (corr b2 H) / corr b1 H / (sqrt (if ams then M2max b2 H else M2 b2 H) + eps) in
  exists rate, lower <= rate <= upper /\
    (lower <= adam_rate <= upper -> rate = adam_rate) /\
    xs H = xs l - rate * M1 b1 H.
Proof. exact bound_ok. Qed.
Print Assumptions C33_rate_is_clipped.

(** Both bounds are within fl/(gamma n) of fl, so they converge to it: with a constant
    step size fl is finalLr. *)
Theorem C33_bounds_converge :
  forall finalLr gamma (l : list (R * R)) h, 0 < gamma -> l <> [] -> 0 <= finalLr * h / first_step l ->
  let fl := finalLr * h / first_step l in
  let n := INR (length l) in
  let e := fl / (gamma * n) in
  fl - e <= fl * (1 - 1 / (gamma * n + 1)) <= fl /\
  fl <= fl * (1 + 1 / (gamma * n)) <= fl + e.
Proof. exact bounds_converge. Qed.
Print Assumptions C33_bounds_converge.

(** The accessor Gamma() does not reach the convergence speed: writing through it
    leaves gamma alone and overwrites the final learning rate. *)
Theorem C33_gamma_accessor_refuted :
  exists (p : @bound_params (RNum 0)) (v : R),
    bp_gamma (set_Gamma p v) <> v /\ bp_gamma (set_Gamma p v) = bp_gamma p /\
    bp_finalLr (set_Gamma p v) = v /\ bp_finalLr p <> v /\ get_Gamma p <> bp_gamma p.
Proof.
  exists {| bp_finalLr := 1 / 10 : RNum 0; bp_gamma := 1 / 1000 : RNum 0 |}, (1 / 100). cbn.
  repeat split; intros E; try lra; change (@eq R (1/10) (1/1000)) in E; lra.
Qed.
Print Assumptions C33_gamma_accessor_refuted.

(* two updates with step 1, finalLr 1/10, gamma 1: at the second one the bounds are
   1/10 * 2/3 and 1/10 * 3/2 *)
Example C33_case : forall mx (g1 g2 : R), exists rate, 1 / 15 <= rate <= 3 / 20 /\
  let up := bound_up (N := RNum mx) pow false (1/10) 1 1 (9/10) (1/2) in
  snd (run (N := RNum mx) up bound_init 5 [(1, g1); (1, g2)]) =
  snd (run (N := RNum mx) up bound_init 5 [(1, g1)]) - rate * M1 (9/10) [(1, g1); (1, g2)].
Proof.
  intros mx g1 g2.
  destruct (C33_rate_is_clipped mx (1/10) 1 1 (9/10) (1/2) false ltac:(lra) 5 [(1, g1)] 1 g2)
    as (rate & K & _ & E); simpl; try lra.
  exists rate. split; [|exact E]. simpl in K. lra.
Qed.
