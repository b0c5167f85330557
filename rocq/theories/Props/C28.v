(** C28: the linear minimisation problems of Frank-Wolfe's constraint classes. *)
From Coq Require Import List Arith Bool ZArith Reals Lra Lia.
From Verif.Base Require Import Num Instances Vec.
From Verif.Model Require Import Common LpBall.
From Verif.Spec Require Import Gradient LpSpec.
From Verif.Proof Require Import LpProof LpMore LpGroup LpEx.
Import ListNotations.
Local Open Scope R_scope.

(** ConstrLpBallSolver, p = infinity, p = 1 or 1 < p: for every non-empty vector v and all positive
    weights the result lies in the weighted unit ball and minimises <v, .> there.  For p > 1 the
    exponent given to arma::normalise must be p, that is, p must be an integer. *)
Theorem C28_lpball :
  forall mx (p : lp (RNum mx)) (pn : R) lambda v s0,
  lambda_ok lambda v -> v <> [] ->
  (match p with PInf => True | PNum p => 1 <= p /\ (1 < p -> pn = p) end) ->
  exists s, lpball (N := RNum mx) powR p pn lambda v s0 = Ret s /\
    in_ball p (weights lambda v) s /\ forall y, in_ball p (weights lambda v) y -> dotR v s <= dotR v y.
Proof. exact lpball_ok. Qed.
Print Assumptions C28_lpball.

(** ConstrStructGroupSolver with GroupLpBall: for every non-empty list of groups the result is an
    atom of one of the groups and minimises <v, .> over the atoms of all groups.  (p and its
    conjugate exponent must both be integers, so p is 1, 2 or infinity.) *)
Theorem C28_groups :
  forall mx (p : lp (RNum mx)) (pn qn : R) groups v s0,
  exps_ok p pn qn -> groups_ok groups (length v) ->
  exists s, struct_group (N := RNum mx) powR p pn qn groups (length v) v s0 = Ret s /\
    (exists ind, In ind groups /\ group_atom p ind (length v) s) /\
    forall ind a, In ind groups -> group_atom p ind (length v) a -> dotR v s <= dotR v a.
Proof. exact struct_group_ok. Qed.
Print Assumptions C28_groups.

(** p < 1: s is left as it was. *)
Theorem C28_wrong_p :
  forall mx (p pn : R) lambda v s0, p < 1 ->
  lpball (N := RNum mx) powR (PNum (N := RNum mx) p) pn lambda v s0 = Ret s0.
Proof. exact wrong_p. Qed.
Print Assumptions C28_wrong_p.
(** p = 1 and no elements: index_max fails. *)
Theorem C28_empty :
  forall mx (pn : R) s0, lpball (N := RNum mx) powR (PNum (N := RNum mx) 1) pn None [] s0 = Bad.
Proof. exact empty_p1. Qed.
Print Assumptions C28_empty.

(** For p = 3/2 (arma::normalise gets 1) a point of the ball is better than the result. *)
Theorem C28_fraction_refuted :
  forall mx, exists s y,
  lpball (N := RNum mx) powR (PNum (N := RNum mx) (3 / 2)) 1 None [1; 1] [0; 0] = Ret s /\
  in_ball (mx := mx) (PNum (N := RNum mx) (3 / 2)) [1; 1] y /\ dotR [1; 1] y < dotR [1; 1] s.
Proof. exact truncated_p. Qed.
Print Assumptions C28_fraction_refuted.
(** With a negative weight the result need not minimise. *)
Theorem C28_negative_refuted :
  forall mx, exists s y,
  lpball (N := RNum mx) powR PInf 0 (Some [-1]) [1] [0] = Ret s /\
  in_ball (mx := mx) PInf [-1] y /\ dotR [1] y < dotR [1] s.
Proof. exact negative_lambda. Qed.
Print Assumptions C28_negative_refuted.

Example C28_ex1 : lambda_ok (Some [1; 2]) [3; -4] /\ [3; -4] <> [].
Proof. split; [split; [reflexivity|repeat constructor; lra]|discriminate]. Qed.
Example C28_ex2 : exps_ok (mx := 0) (PNum (N := RNum 0) 2) 2 2 /\ groups_ok [[0; 2]; [1]]%nat 3.
Proof.
  split; [split; [lra|]; intros _; split; [reflexivity|field]|].
  split; [discriminate|]. intros ind [<-|[<-|[]]]; (split; [discriminate|]); split.
  - repeat constructor; cbn; lia.
  - intros i [<-|[<-|[]]]; lia.
  - repeat constructor; cbn; auto.
  - intros i [<-|[]]; lia.
Qed.
