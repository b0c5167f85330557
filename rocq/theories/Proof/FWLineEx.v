(** The line search of Frank-Wolfe on a function that is not quadratic. *)
From Coq Require Import List Reals Lra Lia.
From Coquelicot Require Import Coquelicot.
From Verif.Base Require Import Num Vec Instances.
From Verif.Model Require Import Common FrankWolfe.
From Verif.Spec Require Import Gradient FWSpec ConvergeSpec FWLineSpec.
Import ListNotations.
Local Open Scope R_scope.

Lemma quart_raises : forall mx : R,
  convex_on (space 1) quart /\ (forall x, space 1 x -> gradient_at quart x (quart_grad x)) /\
  quart (fst (line_search (N := RNum mx) 1 (1 / 100000) quart quart_grad [0] [1])) > quart [0].
Proof.
  intros mx. split; [|split].
  - intros t [|a [|]] [|b [|]] T Ka Kb; try discriminate. unfold segment_pt. cbn [quart map2].
    assert (SQ : forall u v w p q, 0 <= u <= (1 - t) * p + t * q -> w = u * u -> 0 <= p -> 0 <= q -> v = (1 - t) * (p * p) + t * (q * q) -> w <= v).
    { intros u v w p q U -> P Q ->. assert (u * u <= ((1 - t) * p + t * q) * ((1 - t) * p + t * q)) by (apply Rmult_le_compat; lra).
      assert (0 <= t * (1 - t) * ((p - q) * (p - q))) by (apply Rmult_le_pos; [apply Rmult_le_pos; lra|apply Rle_0_sqr]). lra. }
    set (p := 1 - a) in *. set (q := 1 - b) in *.
    assert (E : 1 - ((1 - t) * a + t * b) = (1 - t) * p + t * q) by (unfold p, q; ring). rewrite E.
    assert (H : ((1 - t) * p + t * q) * ((1 - t) * p + t * q) * (((1 - t) * p + t * q) * ((1 - t) * p + t * q)) <= (1 - t) * (p * p * (p * p)) + t * (q * q * (q * q))).
    { apply (SQ (((1 - t) * p + t * q) * ((1 - t) * p + t * q)) _ _ (p * p) (q * q)); try reflexivity; try apply Rle_0_sqr.
      split; [apply Rle_0_sqr|]. assert (0 <= t * (1 - t) * ((p - q) * (p - q))) by (apply Rmult_le_pos; [apply Rmult_le_pos; lra|apply Rle_0_sqr]). lra. }
    lra.
  - intros [|a [|]] Ka; try discriminate. split; [reflexivity|]. intros [|d [|]] Ld; try discriminate. apply is_derive_Reals. cbn [along dotR quart quart_grad].
    auto_derive; [auto|]. field.
  - unfold line_search. cbn -[Rltb Rleb quart].
    match goal with |- context [Rleb ?a ?b] => destruct (Rleb_spec a b) as [Q|_]; [exfalso; lra|] end.
    match goal with |- context [Rleb ?a ?b] => destruct (Rleb_spec a b) as [Q|_]; [exfalso; lra|] end.
    match goal with |- context [Rltb ?a ?b] => destruct (Rltb_spec a b) as [Q|_]; [exfalso; lra|] end.
    match goal with |- context [Rltb ?a 0] => destruct (Rltb_spec a 0) as [Q|_]; [exfalso; lra|] end.
    match goal with |- context [clamp01 ?a] => assert (E : clamp01 (N := RNum mx) a = / 2); [replace a with (/ 2) by field|rewrite E; clear E] end.
    { unfold clamp01. cbn [nlt n0 n1 RNum]. destruct (Rltb_spec (/ 2) 0) as [Q|_]; [exfalso; lra|]. destruct (Rltb_spec 1 (/ 2)) as [Q|_]; [exfalso; lra|reflexivity]. }
    destruct (Rltb _ _); cbn [fst quart]; lra.
Qed.
