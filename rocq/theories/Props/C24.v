(** C24: the L-BFGS line search. *)
From Coq Require Import List Arith Bool ZArith QArith Reals Lra Lia.
From Verif.Base Require Import Num Instances QInst Vec.
From Verif.Model Require Import Common LBFGS.
From Verif.Spec Require Import CommonSpec LBFGSSpec.
From Verif.Proof Require Import LineSearchProof WolfeProof LBFGSEx.
Import ListNotations.

(** LineSearch always ends.  It reports success exactly after a search as described by
    [searched]: trial steps 1, then 2.1 times or half the previous one, at most
    max(1, maxLineSearchTrials) of them; the iterate moves by the step of the first trial
    with the least objective, value and gradient are those of the last trial, and the
    last trial satisfies the strong Wolfe conditions or a limit was reached.
    It reports failure only for an uphill or non-finite slope, or a NaN trial, and then
    leaves the iterate where it was. *)
Theorem C24_line_search :
  forall (N : Num), OrdLaws N ->
  forall (armijo wolfe minStep maxStep : N) (maxTrials : nat) (f : list N -> N * list N) cb v0 x g d term tr,
  exists l, line_search armijo wolfe minStep maxStep maxTrials f cb v0 x g d term tr = Some l /\
    (length (ls_trials l) <= Nat.max 1 maxTrials)%nat /\
    (ls_ok l = true ->
       searched armijo wolfe minStep maxStep maxTrials f v0 x g d
         (ls_trials l) (ls_step l) (ls_val l) (ls_x l) (ls_g l) /\
       exists evs, ls_tr l = rev evs ++ tr /\ search_events f x d (ls_trials l) evs) /\
    (ls_ok l = false ->
       ls_x l = x /\ ls_step l = n0 /\
       (nlt n0 (vdot g d) = true \/ nisnan (vdot g d) = true \/ nisinf (vdot g d) = true \/
        nisnan (ls_val l) = true)).
Proof.
  intros N O armijo wolfe minStep maxStep maxTrials f cb v0 x g d term tr.
  destruct (line_search_ok O armijo wolfe minStep maxStep maxTrials f cb v0 x g d term tr) as (l & E & H).
  exists l. split; [exact E|].
  destruct H as [(OK & TS & X & V & G & TR & TE & ST & R)|(S1 & S2 & S3 & P)].
  - rewrite OK, TS. split; [cbn; lia|]. split; [discriminate|]. intros _. tauto.
  - destruct P as (P1 & P2 & P3 & (evs & TR & SE & TE) & P4). split; [apply P3|]. destruct (ls_ok l).
    + split; [|discriminate]. intros _. destruct P4 as (NN & BS & X & bf & t & T1 & T2 & T3 & T4). split.
      * repeat split; auto; try apply P1; try apply P3. exists bf, t. auto.
      * exists evs. auto.
    + split; [discriminate|]. intros _. destruct P4 as (X & ST & bf & t & T1 & T2 & T3 & T4 & T5).
      rewrite T2. tauto.
Qed.
Print Assumptions C24_line_search.

(** When the search ends by the Wolfe conditions, the objective at the new iterate has
    decreased by at least armijo * (accepted step) * |slope|. *)
Theorem C24_accepted_decrease :
  forall (mx armijo wolfe minStep maxStep : R) (maxTrials : nat) (f : list R -> R * list R)
         v0 x g d ts a v' x' g' before t,
  searched (N := RNum mx) armijo wolfe minStep maxStep maxTrials f v0 x g d ts a v' x' g' ->
  ts = before ++ [t] -> strong_wolfe (N := RNum mx) armijo wolfe v0 (vdot (N := RNum mx) g d) d t ->
  (t_val t < mx)%R ->
  (0 < t_step t /\ fst (f x') <= v0 + armijo * t_step t * vdot (N := RNum mx) g d)%R.
Proof.
  intros. destruct (accepted_decrease mx armijo wolfe minStep maxStep maxTrials f v0 x g d ts a v' x' g' before t)
    as (A & B & C); auto. split; [exact A|]. apply Rle_trans with (1 := B), C.
Qed.
Print Assumptions C24_accepted_decrease.

Definition ls_Q (maxTrials : nat) (f : list QNum -> QNum * list QNum) (v0 : QNum) (x g d : list QNum) :=
  line_search (N := QNum) (1 # 10000)%Q (9 # 10)%Q (1 # 1000000)%Q (1000000)%Q maxTrials f quiet v0 x g d false [].

(** The reported value and gradient need not belong to the reported iterate: the first
    trial (value 5 at 1) is the best, the second one (value 6 at 2.1) is accepted. *)
Theorem C24_value_is_at_iterate_refuted :
  exists f l, ls_Q 50 f 10%Q [0%Q] [(-1)%Q] [1%Q] = Some l /\ ls_ok l = true /\
    ls_x l = [1%Q] /\ ls_val l = 6%Q /\ fst (f (ls_x l)) = 5%Q.
Proof.
  exists (tbl [(1, (5, -1)); (21 # 10, (6, 0))]%Q). eexists. split; [vm_compute; reflexivity|].
  repeat split; vm_compute; reflexivity.
Qed.
Print Assumptions C24_value_is_at_iterate_refuted.

(** When the trials run out the iterate may move to a higher objective. *)
Theorem C24_not_above_start_refuted :
  exists f l, ls_Q 1 f 0%Q [0%Q] [(-1)%Q] [1%Q] = Some l /\ ls_ok l = true /\
    ls_x l = [1%Q] /\ fst (f (ls_x l)) = 7%Q.
Proof.
  exists (tbl [(1, (7, 0))]%Q). eexists. split; [vm_compute; reflexivity|].
  repeat split; vm_compute; reflexivity.
Qed.
Print Assumptions C24_not_above_start_refuted.

(** f(x) = (x - 3)^2 / 2 from 0 along 8: 8, 4, (16.8 is not tried), accepted at step 1/2 *)
Example C24_run :
  let f := fun x : list QNum => match x with
    | [q] => (Qred ((q - 3) * (q - 3) / 2), [Qred (q - 3)]) | _ => (0, []) end%Q in
  match ls_Q 50 f (9 # 2)%Q [0%Q] [(-3)%Q] [8%Q] with
  | Some l => (ls_ok l, ls_x l, ls_val l, length (ls_trials l)) = (true, [4%Q], (1 # 2)%Q, 2%nat)
  | None => False
  end.
Proof. vm_compute. reflexivity. Qed.
