(** C70: how good Frank-Wolfe's answers are on smooth convex functions. *)
From Coq Require Import List Arith Bool Reals Lra Lia.
From Verif.Base Require Import Num Vec Instances.
From Verif.Model Require Import Common FrankWolfe.
From Verif.Spec Require Import CommonSpec GDSpec Gradient FWSpec ConvergeSpec.
From Verif.Proof Require Import FWProof SmoothProof FWConverge GDConverge.
From Verif.Props Require Import C27.
Import ListNotations.
Local Open Scope R_scope.

(** With the classic update rule, a convex set of squared diameter at most D2, a convex
    function whose gradient is Lipschitz with constant L there, a solver that solves the
    linear problems and callbacks that leave gradients alone: after k steps the objective
    exceeds that of any point y of the set by at most M / (k + 3), where M is the larger of
    2 L D2 and 3 (f x0 - f y). *)
Theorem C70_classic_rate :
  forall (mx : R) n K L D2 f grad lmo maxIterations tolerance cb fuel x0 r y M,
  convex_set n K -> smooth_on K L f grad -> 0 <= L -> convex_on K f ->
  (forall a b, K a -> K b -> sqdist a b <= D2) -> (forall g, length g = n -> minimises K g (lmo g)) ->
  (forall h x v g, cs_grad cb h x v g = g) -> K x0 ->
  frank_wolfe (N := RNum mx) maxIterations tolerance (fun x => (f x, grad x)) lmo (rule_classic (N := RNum mx)) cb fuel x0 = Ret r ->
  K y -> 2 * (L * D2) <= M -> 3 * (f x0 - f y) <= M ->
  (forall k e, nth_error (evalgs (o_tr r)) k = Some e -> (INR k + 3) * (e_val (N := RNum mx) e - f y) <= M) /\
  (INR (length (steps_to (o_tr r))) + 3) * (f (o_x r) - f y) <= M.
Proof.
  intros mx n K L D2 f grad lmo maxIterations tolerance cb fuel x0 r y M H1 H2 H3 H4 H5 H6 H7 H8 H9 H10 H11 H12.
  exact (fw_rate mx n K L D2 f grad lmo H1 H2 H3 H4 H5 H6 maxIterations tolerance cb H7 fuel x0 r H8 H9 y M H10 H11 H12).
Qed.
Print Assumptions C70_classic_rate.

(** [-1, 1], its linear solver and x^2/2 meet the hypotheses, with L = 1 and D2 = 4, and a
    run exists for every start in the set. *)
Definition pm1 (x : list R) : Prop := match x with [q] => -1 <= q <= 1 | _ => False end.
Definition pm1_end (g : list R) : list R := match g with [q] => if Rltb 0 q then [-1] else [1] | _ => [] end.
Lemma pm1_ok : convex_set 1 pm1 /\ smooth_on pm1 1 (fun x => 1 / 2 * sqn x) (map (Rmult 1)) /\
  convex_on pm1 (fun x => 1 / 2 * sqn x) /\ (forall a b, pm1 a -> pm1 b -> sqdist a b <= 4) /\
  (forall g, length g = 1%nat -> minimises pm1 g (pm1_end g)).
Proof.
  split; [|split; [|split; [|split]]].
  - split; [intros [|a [|]] H; cbn in *; tauto|]. intros t [|a [|]] [|b [|]] H KA KB; cbn in *; try tauto. nra.
  - destruct (bowl_smooth 1 1) as [A B]. split.
    + intros x Kx. apply A. destruct x as [|q [|]]; cbn in Kx; try tauto. reflexivity.
    + intros x y Kx Ky. apply B; [destruct x as [|q [|]]|destruct y as [|q [|]]]; try reflexivity; cbn in *; tauto.
  - intros t a b T Ka Kb. apply (bowl_convex 1 1); [lra|exact T| |]; [destruct a as [|q [|]]|destruct b as [|q [|]]]; try reflexivity; cbn in *; tauto.
  - intros [|a [|]] [|b [|]] Ka Kb; cbn in *; try tauto. nra.
  - intros [|q [|]] L; try discriminate. split.
    + cbn. destruct (Rltb_spec 0 q); cbn; lra.
    + intros [|y [|]] Ky; cbn in *; try tauto. destruct (Rltb_spec 0 q); cbn; nra.
Qed.
Example C70_example : forall (mx : R) x0, pm1 x0 ->
  let cb := {| cs_stop := fun _ => false; cs_grad := fun _ _ _ g => g |} in
  exists r, frank_wolfe (N := RNum mx) 100 (1 / 100) (fun x => (1 / 2 * sqn x, map (Rmult 1) x)) pm1_end (rule_classic (N := RNum mx)) cb 100 x0 = Ret r /\
    (INR (length (steps_to (o_tr r))) + 3) * (1 / 2 * sqn (o_x r) - 1 / 2 * sqn [0]) <= 8.
Proof.
  intros mx x0 K0 cb. destruct (C27_returns (RNum mx) 100 (1 / 100) (fun x => (1 / 2 * sqn x, map (Rmult 1) x)) pm1_end (rule_classic (N := RNum mx)) cb x0 100) as [r E].
  { apply Nat.leb_le. reflexivity. }
  exists r. split; [exact E|]. destruct pm1_ok as (A & B & C & D & F).
  eapply (C70_classic_rate mx 1 pm1 1 4 (fun x => 1 / 2 * sqn x)); try eassumption; try reflexivity; try lra; cbn; try lra.
  destruct x0 as [|q [|]]; cbn in K0; try tauto. cbn. nra.
Qed.

(** Frank-Wolfe is not a descent method: the first step goes two thirds of the way to the
    solution of the linear problem and can raise the objective. *)
Theorem C70_each_step_descends_refuted :
  exists r, frank_wolfe (N := RNum 1) 2 0 (fun x => (1 / 2 * sqn x, map (Rmult 1) x)) pm1_end (rule_classic (N := RNum 1))
      {| cs_stop := fun _ => false; cs_grad := fun _ _ _ g => g |} 2 [1 / 8] = Ret r /\
    length (steps_to (o_tr r)) = 1%nat /\ 1 / 2 * sqn (o_x r) > 1 / 2 * sqn [1 / 8].
Proof.
  eexists. split; [|split].
  - unfold frank_wolfe. cbn [fw_loop bound Nat.eqb negb andb orb RNum cs_grad cs_stop nlt].
    destruct (Rltb_spec (nabs (n := RNum 1) (vdot (N := RNum 1) (vsub (N := RNum 1) [1 / 8] (pm1_end (map (Rmult 1) [1 / 8]))) (map (Rmult 1) [1 / 8]))) 0) as [H|H].
    { match type of H with nabs (n := RNum 1) ?a < 0 => pose proof (Rabs_pos a) as P end. cbn [nabs RNum] in H. exfalso. lra. }
    cbn [map pm1_end]. destruct (Rltb_spec 0 (1 * (1 / 8))) as [_|H']; [|exfalso; lra]. reflexivity.
  - reflexivity.
  - cbn. lra.
Qed.
Print Assumptions C70_each_step_descends_refuted.
