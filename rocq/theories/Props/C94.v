(** C94: Frank-Wolfe with the line search on convex quadratic functions. *)
From Coq Require Import List Arith Bool Reals Lra Lia.
From Verif.Base Require Import Num Vec Instances.
From Verif.Model Require Import Common FrankWolfe.
From Verif.Spec Require Import CommonSpec GDSpec Gradient FWSpec ConvergeSpec FWLineSpec.
From Verif.Proof Require Import FWProof FWConvex SmoothProof FWConverge FWLineSearch FWLineEx GDConverge.
From Verif.Props Require Import C27 C70.
Import ListNotations.
Local Open Scope R_scope.

(** LineSearch::Optimize on a convex quadratic function, with positive tolerance and at least one
    iteration: the point it leaves is the best of the whole segment, or it is the first end of the
    segment and the objective falls from there with a slope smaller than the tolerance. *)
Theorem C94_line_search_exact :
  forall (mx : R) n K f grad lsMax (lsTol : R) x s,
  convex_set n K -> (forall x, K x -> gradient_at f x (grad x)) -> convex_on K f -> affine_on K grad ->
  (0 < lsMax)%nat -> 0 < lsTol -> K x -> K s ->
  let z := fst (line_search (N := RNum mx) lsMax lsTol f grad x s) in
  (forall t, 0 <= t <= 1 -> f z <= f (segment_pt t x s)) \/
  (z = x /\ - lsTol < dotR (grad x) s - dotR (grad x) x).
Proof.
  intros mx n K f grad lsMax lsTol x s CK GR CV AF HM HT Kx Ks.
  destruct (exact_search mx n K f grad CK GR CV lsMax lsTol AF HM HT x s Kx Ks) as [H|[E H]]; [left; exact H|right].
  split; [exact E|]. unfold slope in H. rewrite segment_0 in H; [exact H|]. destruct CK as [CL _]. rewrite (CL _ Kx), (CL _ Ks). reflexivity.
Qed.
Print Assumptions C94_line_search_exact.

(** Frank-Wolfe with UpdateLineSearch on a convex quadratic function whose gradient is Lipschitz with
    constant L, a convex set of squared diameter at most D2, a solver that solves the linear problems
    and callbacks that leave gradients alone: the objective never rises from one evaluation to a
    later one, and after k steps it exceeds that of any point y of the set by at most M / (k + 3) or at
    most the tolerance of the line search, M being the larger of 2 L D2 and 3 (f x0 - f y). *)
Theorem C94_rate :
  forall (mx : R) n K f grad lsMax (lsTol : R) L D2 lmo maxIterations tolerance cb fuel x0 r y M,
  convex_set n K -> smooth_on K L f grad -> 0 <= L -> convex_on K f -> affine_on K grad ->
  (0 < lsMax)%nat -> 0 < lsTol ->
  (forall a b, K a -> K b -> sqdist a b <= D2) -> (forall g, length g = n -> minimises K g (lmo g)) ->
  (forall h x v g, cs_grad cb h x v g = g) -> K x0 ->
  frank_wolfe (N := RNum mx) maxIterations tolerance (fun x => (f x, grad x)) lmo (rule_linesearch (N := RNum mx) lsMax lsTol f grad) cb fuel x0 = Ret r ->
  K y -> 2 * (L * D2) <= M -> 3 * (f x0 - f y) <= M ->
  (forall j k e e', (j <= k)%nat -> nth_error (evalgs (o_tr r)) j = Some e -> nth_error (evalgs (o_tr r)) k = Some e' ->
     e_val (N := RNum mx) e' <= e_val (N := RNum mx) e) /\
  (forall k e, nth_error (evalgs (o_tr r)) k = Some e ->
     (INR k + 3) * (e_val (N := RNum mx) e - f y) <= M \/ e_val (N := RNum mx) e - f y <= lsTol) /\
  f (o_x r) <= f x0 /\
  ((INR (length (steps_to (o_tr r))) + 3) * (f (o_x r) - f y) <= M \/ f (o_x r) - f y <= lsTol).
Proof.
  intros mx n K f grad lsMax lsTol L D2 lmo maxIterations tolerance cb fuel x0 r y M CK SM HL CV AF HM HT HD LM CB K0 RUN Ky M1 M2.
  exact (fw_line_rate mx n K f grad CK (proj1 SM) CV lsMax lsTol AF HM HT L D2 lmo SM HL HD LM maxIterations tolerance cb CB fuel x0 r K0 RUN y M Ky M1 M2).
Qed.
Print Assumptions C94_rate.

(** x^2/2 on [-1, 1], where the classic rule raises the objective (C70): the hypotheses hold and a run
    exists for every start in the set. *)
Example C94_example : forall (mx : R) x0, pm1 x0 ->
  let cb := {| cs_stop := fun _ => false; cs_grad := fun _ _ _ g => g |} in
  affine_on pm1 (map (Rmult 1)) /\
  exists r, frank_wolfe (N := RNum mx) 100 (1 / 100) (fun x => (1 / 2 * sqn x, map (Rmult 1) x)) pm1_end
      (rule_linesearch (N := RNum mx) 10 (1 / 100000) (fun x => 1 / 2 * sqn x) (map (Rmult 1))) cb 100 x0 = Ret r /\
    1 / 2 * sqn (o_x r) <= 1 / 2 * sqn x0 /\
    ((INR (length (steps_to (o_tr r))) + 3) * (1 / 2 * sqn (o_x r) - 1 / 2 * sqn [0]) <= 8 \/ 1 / 2 * sqn (o_x r) - 1 / 2 * sqn [0] <= 1 / 100000).
Proof.
  intros mx x0 K0 cb.
  assert (AF : affine_on pm1 (map (Rmult 1))).
  { intros t [|a [|]] [|b [|]] T Ka Kb; cbn in *; try tauto. f_equal. ring. }
  split; [exact AF|].
  destruct (C27_returns (RNum mx) 100 (1 / 100) (fun x => (1 / 2 * sqn x, map (Rmult 1) x)) pm1_end (rule_linesearch (N := RNum mx) 10 (1 / 100000) (fun x => 1 / 2 * sqn x) (map (Rmult 1))) cb x0 100) as [r E].
  { apply Nat.leb_le. reflexivity. }
  exists r. split; [exact E|]. destruct pm1_ok as (A & B & C & D & F).
  eapply (C94_rate mx 1 pm1 (fun x => 1 / 2 * sqn x) (map (Rmult 1)) 10 (1 / 100000) 1 4); try eassumption; try reflexivity; try lra; try lia; cbn; try lra.
  destruct x0 as [|q [|]]; cbn in K0; try tauto. cbn. nra.
Qed.

(** On other convex functions one step of the line search can raise the objective:
    x + (1 - x)^4 / 2 from 0 to 1 has the slopes -1 and 1 at the ends, so that the secant method goes
    to the middle, where the objective is 17/32 instead of 1/2; with maxIterations = 1 the line search
    ends there. *)
Theorem C94_not_quadratic_refuted : forall mx : R,
  convex_on (space 1) quart /\ (forall x, space 1 x -> gradient_at quart x (quart_grad x)) /\
  quart (fst (line_search (N := RNum mx) 1 (1 / 100000) quart quart_grad [0] [1])) > quart [0].
Proof. exact quart_raises. Qed.
Print Assumptions C94_not_quadratic_refuted.
