From Coq Require Import List Arith Bool ZArith Reals Lra Lia.
From Verif.Base Require Import Num Instances Vec.
From Verif.Model Require Import Common SA LpBall.
From Verif.Spec Require Import Gradient LpSpec.
From Verif.Proof Require Import GradientProof LpProof LpMore LpGroup.
Import ListNotations.
Local Open Scope R_scope.

Lemma wrong_p mx (p pn : R) lambda v s0 : p < 1 ->
  lpball (N := RNum mx) (npowR mx) (PNum (N := RNum mx) p) pn lambda v s0 = Ret s0.
Proof. intros H. cbn [lpball nlt neq n1 RNum]. destruct (Rltb_spec 1 p); [lra|]. destruct (Reqb_spec p 1); [lra|reflexivity]. Qed.
Lemma empty_p1 mx (pn : R) s0 : lpball (N := RNum mx) (npowR mx) (PNum (N := RNum mx) 1) pn None [] s0 = Bad.
Proof. cbn [lpball nlt neq n1 RNum]. destruct (Rltb_spec 1 1); [lra|]. destruct (Reqb_spec 1 1); [reflexivity|lra]. Qed.

(** p = 3/2: normalise gets the integer part 1 *)
Lemma truncated_p mx : exists s y,
  lpball (N := RNum mx) (npowR mx) (PNum (N := RNum mx) (3 / 2)) 1 None [1; 1] [0; 0] = Ret s /\
  in_ball (mx := mx) (PNum (N := RNum mx) (3 / 2)) [1; 1] y /\ dotR [1; 1] y < dotR [1; 1] s.
Proof.
  exists [-1/2; -1/2], [-3/5; -3/5]. split; [|split].
  - cbn [lpball nlt n1 RNum by_lambda map2]. destruct (Rltb_spec 1 (3 / 2)); [|lra].
    assert (S1 : nsign (N := RNum mx) 1 = 1) by (unfold nsign; cbn; destruct (Rltb_spec 0 1); lra).
    rewrite S1. cbn [nmul nopp nabs RNum ndiv nsub]. rewrite Rabs_R1. unfold npowR at 2 3. rewrite powR_1l.
    unfold normalise, pnorm. rewrite vsum_sumR. cbn [map sumR nabs RNum ndiv neq n0 n1]. unfold npowR.
    replace (Rabs (- (1) * 1)) with 1 by (replace (- (1) * 1) with (- (1)) by lra; rewrite Rabs_Ropp, Rabs_R1; reflexivity).
    rewrite powR_1l. replace (1 / 1) with 1 by field. rewrite powR_1r by lra.
    destruct (Reqb_spec (1 + (1 + 0)) 0); [lra|]. f_equal. f_equal; [field|f_equal; field].
  - split; [reflexivity|]. cbn [map2 sumR].
    replace (1 * (-3/5)) with (- (3 / 5)) by field. rewrite Rabs_Ropp, Rabs_pos_eq by lra.
    assert (E : powR (3 / 5) (3 / 2) = 3 / 5 * sqrt (3 / 5)).
    { replace (3 / 2) with (1 + / 2) by field. rewrite <- powR_plus. rewrite powR_1r by lra. f_equal.
      unfold powR. destruct (Rlt_dec 0 (3 / 5)); [|lra]. apply Rpower_sqrt. lra. }
    rewrite E. assert (Q : sqrt (3 / 5) <= 4 / 5).
    { replace (4 / 5) with (sqrt ((4 / 5) * (4 / 5))) by (apply sqrt_square; lra). apply sqrt_le_1_alt. lra. }
    pose proof (sqrt_pos (3 / 5)). lra.
  - cbn [dotR]. lra.
Qed.
(** a negative weight: the point has the wrong sign *)
Lemma negative_lambda mx : exists s y,
  lpball (N := RNum mx) (npowR mx) PInf 0 (Some [-1]) [1] [0] = Ret s /\
  in_ball (mx := mx) PInf [-1] y /\ dotR [1] y < dotR [1] s.
Proof.
  exists [1], [-1]. split; [|split].
  - cbn [lpball by_lambda map]. assert (S1 : nsign (N := RNum mx) 1 = 1) by (unfold nsign; cbn; destruct (Rltb_spec 0 1); lra).
    rewrite S1. cbn. f_equal. f_equal. field.
  - split; [reflexivity|]. intros [|i] a b A B; [|destruct i; discriminate]. injection A as <-. injection B as <-.
    replace (-1 * -1) with 1 by lra. rewrite Rabs_R1. lra.
  - cbn [dotR]. lra.
Qed.
