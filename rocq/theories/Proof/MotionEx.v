(** Policies of C80, the counterexample and the example. *)
From Coq Require Import List Arith Bool Reals Lra Lia.
From Verif.Base Require Import Num Vec Instances.
From Verif.Model Require Import Common Sgd Updates GradientDescent.
From Verif.Spec Require Import MotionSpec InvarianceSpec.
From Verif.Proof Require Import MotionLinear.
Import ListNotations.
Local Open Scope R_scope.

Lemma sgd_motion mx n Q b : orthogonal n Q -> length b = n ->
  forall batch max tol shuffle exact (f f' : SepFun (RNum mx) (list R) (list R)) cb cb',
  image_function (motion Q b) Q (fun x => length x = n) (fun g => length g = n) f f' ->
  image_callbacks (motion Q b) Q (fun g => length g = n) cb cb' ->
  forall fuel h x, length x = n ->
  image_outcome (motion Q b) Q
    (optimize_with (sgd_cfg batch max tol shuffle exact (vanilla_up (N := RNum mx))) f cb fuel (repeat tt n) tt h x)
    (optimize_with (sgd_cfg batch max tol shuffle exact (vanilla_up (N := RNum mx))) f' cb' fuel (repeat tt n) tt h (motion Q b x)) /\
  (forall up, (exists mu, up = momentum_up (N := RNum mx) mu) \/ (exists mu, up = nesterov_up (N := RNum mx) mu) \/
              (exists mu nu, up = qh_up (N := RNum mx) mu nu) ->
   image_outcome (motion Q b) Q
    (optimize_with (sgd_cfg batch max tol shuffle exact up) f cb fuel (repeat 0 n) tt h x)
    (optimize_with (sgd_cfg batch max tol shuffle exact up) f' cb' fuel (repeat 0 n) tt h (motion Q b x))).
Proof.
  intros HQ Hb batch max tol shuffle exact f f' cb cb' Hf Hcb fuel h x Lx. split.
  - now apply sgd_vanilla_motion.
  - intros up [[mu ->]|[[mu ->]|[mu [nu ->]]]].
    + apply (sgd_linear_motion n Q b HQ Hb mx _ (fun _ => mu) (fun h => - h) (fun _ => mu) (fun h => - h)); try assumption.
      intros s y k g. unfold momentum_up. cbn. apply f_equal2; [ring|]. ring.
    + apply (sgd_linear_motion n Q b HQ Hb mx _ (fun _ => mu) (fun h => - h) (fun _ => mu * mu) (fun h => - (mu * h) - h)); try assumption.
      intros s y k g. unfold nesterov_up. cbn. apply f_equal2; ring.
    + apply (sgd_linear_motion n Q b HQ Hb mx _ (fun _ => mu) (fun _ => 1 - mu) (fun h => - (h * nu * mu)) (fun h => - (h * (1 - nu + nu * (1 - mu))))); try assumption.
      intros s y k g. unfold qh_up. cbn. apply f_equal2; ring.
Qed.

Section Refuted.
  Variables (mx eps b1 b2 h : R).
  Definition quiet : Callbacks (RNum mx) (list R) (list R) := {| cb_stop := fun _ => false; cb_grad := fun _ g => g |}.
  (** the linear function with slope [w] *)
  Definition slope (w : list R) : SepFun (RNum mx) (list R) (list R) :=
    Build_SepFun (RNum mx) (list R) (list R) 1 (fun _ x _ _ => dotR w x) (fun _ x _ _ => (dotR w x, w)).
  Lemma slope_run w : exists r,
    optimize_with (sgd_cfg 1 1 0 false false (adam_up (N := RNum mx) pow eps b1 b2)) (slope w) quiet 5 [adam_init; adam_init] tt h [0; 0] = Return r /\
    r_x r = snd (vec_up (N := RNum mx) (adam_up (N := RNum mx) pow eps b1 b2) [adam_init; adam_init] [0; 0] h w).
  Proof.
    unfold optimize_with. cbn -[vec_up adam_up pow Rltb].
    destruct (vec_up (N := RNum mx) (adam_up (N := RNum mx) pow eps b1 b2) [adam_init; adam_init] [0; 0] h w) as [u x1].
    cbn -[Rltb]. match goal with |- context [Rltb ?a ?b] => destruct (Rltb_spec a b) as [L|L] end.
    - exfalso. revert L. apply Rle_not_lt. apply Rabs_pos.
    - cbn. eexists. split; reflexivity.
  Qed.
  Lemma adam_not_motion : 0 <= b1 < 1 -> 0 <= b2 < 1 -> 0 < eps -> h <> 0 ->
    exists Q f f' cb x, orthogonal 2 Q /\ length x = 2%nat /\
    image_function (N := RNum mx) (motion Q [0; 0]) Q (fun x => length x = 2%nat) (fun g => length g = 2%nat) f f' /\
    image_callbacks (N := RNum mx) (motion Q [0; 0]) Q (fun g => length g = 2%nat) cb cb /\
    let run f x := optimize_with (sgd_cfg 1 1 0 false false (adam_up (N := RNum mx) pow eps b1 b2)) f cb 5 [adam_init; adam_init] tt h x in
    exists r r', run f x = Return r /\ run f' (motion Q [0; 0] x) = Return r' /\ r_x r' <> motion Q [0; 0] (r_x r).
  Proof.
    intros H1 H2 He Hh. exists turn34, (slope [1; 0]), (slope (turn34 [1; 0])), quiet, [0; 0].
    split; [exact turn34_orthogonal|]. split; [reflexivity|].
    assert (Z : forall x, motion turn34 [0; 0] x = turn34 x \/ length x <> 2%nat).
    { intros [|x [|y [|z u]]]; try (right; discriminate). left. unfold motion, addR. cbn. f_equal; [ring|f_equal; ring]. }
    split; [|split].
    - split; [reflexivity|]. intros s x k m L. destruct (Z x) as [E|E]; [|contradiction]. rewrite E.
      assert (D : dotR (turn34 [1; 0]) (turn34 x) = dotR [1; 0] x) by (apply (og_dot 2 turn34 turn34_orthogonal); [reflexivity|exact L]).
      cbn [slope sf_eval sf_evalgrad fst snd]. split; [exact D|]. split; [reflexivity|]. apply f_equal2; [exact D|reflexivity].
    - split; [reflexivity|]. intros tr g L. split; [exact L|reflexivity].
    - cbv zeta. destruct (slope_run [1; 0]) as (r & A & B). destruct (slope_run (turn34 [1; 0])) as (r' & A' & B').
      exists r, r'. split; [exact A|]. split.
      + replace (motion turn34 [0; 0] [0; 0]) with [0; 0]; [exact A'|]. unfold motion, addR. cbn. f_equal; [lra|f_equal; lra].
      + pose proof (adam_turn mx eps b1 b2 h H1 H2 He Hh) as NE.
        replace (turn34 [0; 0]) with [0; 0] in NE by (cbn; f_equal; [lra|f_equal; lra]).
        intros C. apply NE. rewrite <- B, <- B'. etransitivity; [exact C|].
        destruct (Z (r_x r)) as [E|E]; [exact E|]. exfalso. apply E. rewrite B. cbn [vec_up].
        destruct (adam_up (N := RNum mx) pow eps b1 b2 adam_init 0 h 1), (adam_up (N := RNum mx) pow eps b1 b2 adam_init 0 h 0). reflexivity.
  Qed.
End Refuted.

Lemma motion_ex :
  let f := fun x : list R => match x with [a; b] => (a * a / 2, [a; 0]) | _ => (0, []) end in
  let f' := fun x : list R => match x with [a; b] => let t := 3 / 5 * (a - 1) + 4 / 5 * (b - 1) in (t * t / 2, [3 / 5 * t; 4 / 5 * t]) | _ => (0, []) end in
  let quiet := {| cs_stop := fun _ => false; cs_grad := fun _ _ _ g => g |} in
  orthogonal 2 turn34 /\
  (forall x, length x = 2%nat -> length (snd (f x)) = 2%nat /\ f' (motion turn34 [1; 1] x) = (fst (f x), turn34 (snd (f x)))) /\
  exists r r', gd (N := RNum 100) (1 / 5) 2 0 f quiet 3 [5; 0] = Some r /\ o_x r = [4; 0] /\
    gd (N := RNum 100) (1 / 5) 2 0 f' quiet 3 [4; 5] = Some r' /\ o_x r' = [17 / 5; 21 / 5] /\ o_val r' = 25 / 2.
Proof.
  cbv zeta. split; [exact turn34_orthogonal|]. split.
  - intros [|x [|y [|z u]]] L; try discriminate. split; [reflexivity|]. unfold motion, addR. cbn. apply f_equal2; [field|]. f_equal; [field|f_equal; field].
  - assert (A : forall a : R, Rltb (Rabs a) 0 = false).
    { intros a. destruct (Rltb_spec (Rabs a) 0) as [L|L]; [exfalso; revert L; apply Rle_not_lt, Rabs_pos|reflexivity]. }
    do 2 eexists. unfold gd. split; [cbn -[Rltb]; rewrite A; reflexivity|]. split; [cbn; f_equal; [lra|f_equal; lra]|].
    split; [cbn -[Rltb]; rewrite A; reflexivity|]. split; [cbn; f_equal; [lra|f_equal; lra]|]. cbn. lra.
Qed.
