From Coq Require Import List Arith Bool ZArith Reals Lra Lia Permutation.
From Verif.Base Require Import Num Instances Vec SortIdx.
From Verif.Model Require Import Common SA Proximal.
From Verif.Spec Require Import Gradient LpSpec ProximalSpec.
From Verif.Proof Require Import GradientProof SAProof LpProof LpMore LpGroup ProximalProof.
Import ListNotations.
Local Open Scope R_scope.

(** a sorting function *)
Fixpoint ins_down (x : R) (l : list R) : list R :=
  match l with [] => [x] | y :: r => if Rle_dec y x then x :: l else y :: ins_down x r end.
Definition sort_down (l : list R) : list R := fold_right ins_down [] l.
Inductive down : list R -> Prop :=
| down_nil : down [] | down_cons x l : (forall y, In y l -> y <= x) -> down l -> down (x :: l).
Lemma ins_perm x l : Permutation (ins_down x l) (x :: l).
Proof. induction l as [|y r IH]; cbn; [reflexivity|]. destruct (Rle_dec y x); [reflexivity|]. rewrite IH. apply perm_swap. Qed.
Lemma ins_downs x l : down l -> down (ins_down x l).
Proof.
  induction 1 as [|y r H D IH]; cbn; [constructor; [intros y []|constructor]|]. destruct (Rle_dec y x) as [L|L].
  - constructor; [|constructor; assumption]. intros z [<-|I]; [exact L|]. specialize (H z I). lra.
  - constructor; [|exact IH]. intros z I. apply (Permutation_in _ (ins_perm x r)) in I. destruct I as [<-|I]; [lra|auto].
Qed.
Lemma sort_down_ok : sorts_down sort_down.
Proof.
  intros l. split.
  - induction l as [|x l IH]; cbn; [reflexivity|]. rewrite ins_perm. constructor. exact IH.
  - assert (D : down (sort_down l)) by (induction l; cbn; [constructor|apply ins_downs; assumption]).
    induction D as [|x r H D IH]; intros i j a b L E F; [destruct i; discriminate|].
    destruct j as [|j]; [lia|]. destruct i as [|i].
    + cbn in E, F. injection E as <-. apply H. eapply nth_error_In; exact F.
    + apply (IH i j a b); [lia|exact E|exact F].
Qed.

(** [2; 2] with radius 2: [1; 1] is in the ball; the code returns [0; 0] *)
Lemma l1_two mx : project_l1 (N := RNum mx) sort_down [2; 2] 2 = Ret [0; 0].
Proof.
  unfold project_l1. rewrite vsum_sumR. cbn [map sumR nabs RNum nle existsb nisnan orb]. rewrite (Rabs_pos_eq 2) by lra.
  destruct (Rleb_spec (2 + (2 + 0)) 2); [lra|].
  unfold sort_down. cbn [fold_right ins_down]. destruct (Rle_dec 2 2); [|lra].
  unfold l1_theta, cumsum. cbn [cumsum_from length find_rho nth nlt nsub nadd ndiv n0 RNum]. 
  match goal with |- context [Rltb 0 ?e] => assert (K : 0 < e) by (cbn; lra); destruct (Rltb_spec 0 e); [|contradiction] end.
  cbn [Nat.eqb nth]. unfold l1_shrink. cbn [nle nlt nsub n0 RNum].
  match goal with |- context [Rltb (2 - ?e) 0] => assert (A : e = 2) by (cbn; lra); rewrite A end.
  destruct (Rleb_spec 0 2); [|lra]. destruct (Rltb_spec (2 - 2) 0) as [B|B]; [lra|].
  f_equal. f_equal; [|f_equal]; lra.
Qed.
Lemma l1_not_projection mx : exists v tau r y, 0 < tau /\
  project_l1 (N := RNum mx) sort_down v tau = Ret r /\ length y = length v /\ norm1 y <= tau /\ dist2 v y < dist2 v r.
Proof.
  exists [2; 2], 2, [0; 0], [1; 1]. split; [lra|]. split; [apply l1_two|]. split; [reflexivity|].
  unfold norm1, dist2. cbn [map map2 sumR]. rewrite Rabs_R1. split; lra.
Qed.
