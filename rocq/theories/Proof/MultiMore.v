(** The objectives as the optimizers see them, the degenerate problems, the DTLZ reference
    fronts, Schaffer N.1 and Fonseca-Fleming. *)
From Coq Require Import List Arith Bool Reals ZArith Lia Lra Psatz.
From Verif.Base Require Import Num Instances.
From Verif.Model Require Import Problems MultiProblems DasDennis.
From Verif.Spec Require Import MultiSpec DasDennisSpec LpSpec.
From Verif.Proof Require Import MultiProof MultiZdt MultiDtlz DasDennisProof DasDennisReal.
Import ListNotations.
Local Open Scope R_scope.

(** ** problems whose objectives can all be zero *)
Lemma zero_optimal : forall (feasible : list R -> Prop) F z, (forall x, feasible x -> exists a b c, F x = [a; b; c] /\ 0 <= a /\ 0 <= b /\ 0 <= c) ->
  feasible z -> F z = [0; 0; 0] -> forall x, feasible x -> (pareto_optimal feasible F x <-> F x = [0; 0; 0]).
Proof.
  intros feasible F z P Fz Ez x Fx. destruct (P x Fx) as (a & b & c & E & A & B & C). split.
  - intros [_ O]. destruct (Req_dec a 0) as [->|Na]; [destruct (Req_dec b 0) as [->|Nb]; [destruct (Req_dec c 0) as [->|Nc]; [exact E|]|]|];
      exfalso; apply (O z Fz); rewrite Ez, E; (split; [apply as_good3; assumption|congruence]).
  - intros E0. split; [exact Fx|]. intros y Fy [D N]. destruct (P y Fy) as (a' & b' & c' & E' & A' & B' & C').
    rewrite E0, E' in *. inversion D as [|? ? ? ? D0 D']; subst. inversion D' as [|? ? ? ? D1 D'']; subst.
    inversion D'' as [|? ? ? ? D2 _]; subst. apply N. repeat f_equal; lra.
Qed.

Lemma list3 : forall (a b c a' b' c' : R), [a; b; c] = [a'; b'; c'] <-> a = a' /\ b = b' /\ c = c'.
Proof. intros. split; [intros H; injection H; auto|intros (-> & -> & ->); reflexivity]. Qed.

Definition corner (a b c : R) : list R := [a; b; c; 0; 0; 0; 0].
Lemma corner_box : forall a b c, 0 <= a <= 1 -> 0 <= b <= 1 -> 0 <= c <= 1 -> in_box 0 1 7 (corner a b c).
Proof. intros a b c A B C. split; [reflexivity|]. unfold corner. repeat (apply Forall_cons; [lra|]). apply Forall_nil. Qed.

Theorem dtlz1_seen : forall x, in_box 0 1 7 x ->
  (pareto_optimal (in_box 0 1 7) (one_by_one 3 dtlz1_objective) x <-> co x 0 = 1 /\ co x 1 = 1 /\ co x 2 = 0).
Proof.
  intros x B.
  assert (V : forall y, one_by_one 3 dtlz1_objective y =
    [(1 + rastrigin_g 5 y) * (5/10) * (1 - co y 0); (1 + rastrigin_g 5 y) * (5/10) * (co y 0 * (1 - co y 1));
     (1 + rastrigin_g 5 y) * (5/10) * (co y 0 * co y 1 * co y 2)]).
  { intros y. unfold dtlz1_objective. agree3. }
  rewrite (zero_optimal (in_box 0 1 7) (one_by_one 3 dtlz1_objective) (corner 1 1 0)).
  - rewrite V. assert (G := proj1 (rastrigin_min 5 x (proj1 B))). set (g := rastrigin_g 5 x) in *. rewrite list3.
    split.
    + intros (E0 & E1 & E2). assert (K : (1 + g) * (5/10) <> 0) by lra.
      apply Rmult_integral in E0, E1, E2. destruct E0 as [E0|E0]; [lra|]. destruct E1 as [E1|E1]; [lra|]. destruct E2 as [E2|E2]; [lra|].
      assert (X : co x 0 = 1) by lra. rewrite X in *. assert (Y : co x 1 = 1) by lra. rewrite Y in *. repeat split; lra.
    + intros (-> & -> & ->). repeat split; ring.
  - intros y By. rewrite V. assert (G := proj1 (rastrigin_min 5 y (proj1 By))).
    assert (Y0 := box_co 0 1 7 y 0 By ltac:(lia)). assert (Y1 := box_co 0 1 7 y 1 By ltac:(lia)). assert (Y2 := box_co 0 1 7 y 2 By ltac:(lia)).
    do 3 eexists. split; [reflexivity|]. repeat split; apply Rmult_le_pos; try lra; repeat apply Rmult_le_pos; lra.
  - apply corner_box; lra.
  - rewrite V. unfold corner, co. cbn [nth]. apply list3. repeat split; ring.
  - exact B.
Qed.

Lemma sin0_quarter : forall t, 0 <= t <= 1 -> sin (t * PI * (5/10)) = 0 -> t = 0.
Proof.
  intros t T E. destruct T as [[T0|T0] T1]; [exfalso|lra]. assert (P := PI_RGT_0).
  assert (0 < sin (t * PI * (5/10))) by (apply sin_gt_0; nra). lra.
Qed.
Lemma cos0_quarter : forall t, 0 <= t <= 1 -> cos (t * PI * (5/10)) = 0 -> t = 1.
Proof.
  intros t T E. destruct T as [T0 [T1|T1]]; [exfalso|lra]. assert (P := PI_RGT_0).
  assert (0 < cos (t * PI * (5/10))) by (apply cos_gt_0; nra). lra.
Qed.
Lemma cos_full : cos (1 * PI * (5/10)) = 0.
Proof. replace (1 * PI * (5/10)) with (PI / 2) by lra. apply cos_PI2. Qed.

(* DTLZ2, 3 and 4: [q] is the coordinate, or its power *)
Lemma round_seen : forall (g : list R -> R) (q : R -> R) (ob : nat -> list R -> R),
  (forall x, length x = 7%nat -> 0 <= g x) ->
  (forall t, 0 <= t <= 1 -> 0 <= q t <= 1) -> q 0 = 0 -> q 1 = 1 ->
  (forall t, 0 <= t <= 1 -> q t = 0 -> t = 0) -> (forall t, 0 <= t <= 1 -> q t = 1 -> t = 1) ->
  (forall y, one_by_one 3 ob y =
    [(1 + g y) * sin (q (co y 0) * PI * (5/10));
     (1 + g y) * (cos (q (co y 0) * PI * (5/10)) * sin (q (co y 1) * PI * (5/10)));
     (1 + g y) * (cos (q (co y 0) * PI * (5/10)) * cos (q (co y 1) * PI * (5/10)) * cos (q (co y 2) * PI * (5/10)))]) ->
  forall x, in_box 0 1 7 x ->
  (pareto_optimal (in_box 0 1 7) (one_by_one 3 ob) x <-> co x 0 = 0 /\ co x 1 = 0 /\ co x 2 = 1).
Proof.
  intros g q ob G Q Q0 Q1 Q0' Q1' V x B.
  rewrite (zero_optimal (in_box 0 1 7) (one_by_one 3 ob) (corner 0 0 1)).
  - rewrite V. assert (Gx := G x (proj1 B)). rewrite list3.
    assert (Y0 := box_co 0 1 7 x 0 B ltac:(lia)). assert (Y1 := box_co 0 1 7 x 1 B ltac:(lia)). assert (Y2 := box_co 0 1 7 x 2 B ltac:(lia)).
    split.
    + intros (E0 & E1 & E2).
      apply Rmult_integral in E0, E1, E2. destruct E0 as [E0|E0]; [lra|]. destruct E1 as [E1|E1]; [lra|]. destruct E2 as [E2|E2]; [lra|].
      apply sin0_quarter in E0; [|apply Q; exact Y0]. rewrite E0, !Rmult_0_l, cos_0, !Rmult_1_l in E1, E2.
      apply sin0_quarter in E1; [|apply Q; exact Y1]. rewrite E1, !Rmult_0_l, cos_0, !Rmult_1_l in E2.
      apply cos0_quarter in E2; [|apply Q; exact Y2]. auto.
    + intros (-> & -> & ->). rewrite Q0, Q1, !Rmult_0_l, sin_0, cos_full, cos_0. repeat split; ring.
  - intros y By. rewrite V. assert (Gy := G y (proj1 By)).
    assert (Y0 := box_co 0 1 7 y 0 By ltac:(lia)). assert (Y1 := box_co 0 1 7 y 1 By ltac:(lia)). assert (Y2 := box_co 0 1 7 y 2 By ltac:(lia)).
    assert (A0 := unit_acute _ (Q _ Y0)). assert (A1 := unit_acute _ (Q _ Y1)). assert (A2 := unit_acute _ (Q _ Y2)).
    do 3 eexists. split; [reflexivity|]. repeat split; apply Rmult_le_pos; try lra; repeat apply Rmult_le_pos;
      try (apply acute_sin; assumption); apply acute_cos; assumption.
  - apply corner_box; lra.
  - rewrite V. unfold corner, co. cbn [nth]. rewrite Q0, Q1, !Rmult_0_l, sin_0, cos_full, cos_0. apply list3. repeat split; ring.
  - exact B.
Qed.

Theorem dtlz2_seen : forall x, in_box 0 1 7 x ->
  (pareto_optimal (in_box 0 1 7) (one_by_one 3 dtlz2_objective) x <-> co x 0 = 0 /\ co x 1 = 0 /\ co x 2 = 1).
Proof.
  apply (round_seen (sphere_g 5) (fun t => t)); try (intros; assumption); try reflexivity.
  - intros x L. apply (sphere_min 5 x L).
  - intros y. unfold dtlz2_objective, quarter. agree3.
Qed.
Theorem dtlz3_seen : forall x, in_box 0 1 7 x ->
  (pareto_optimal (in_box 0 1 7) (one_by_one 3 dtlz3_objective) x <-> co x 0 = 0 /\ co x 1 = 0 /\ co x 2 = 1).
Proof.
  apply (round_seen (rastrigin_g 5) (fun t => t)); try (intros; assumption); try reflexivity.
  - intros x L. apply (rastrigin_min 5 x L).
  - intros y. unfold dtlz3_objective, quarter. agree3.
Qed.
Theorem dtlz4_seen : forall alpha x, (1 <= alpha)%nat -> in_box 0 1 7 x ->
  (pareto_optimal (in_box 0 1 7) (one_by_one 3 (dtlz4_objective alpha)) x <-> co x 0 = 0 /\ co x 1 = 0 /\ co x 2 = 1).
Proof.
  intros alpha x Ha. revert x. apply (round_seen (sphere_g 5) (fun t => t ^ alpha)).
  - intros x L. apply (sphere_min 5 x L).
  - intros t T. apply pow_unit. exact T.
  - apply pow_i. lia.
  - apply pow1.
  - intros t T E. destruct T as [[T|T] _]; [exfalso|lra]. assert (Q := pow_lt t alpha T). lra.
  - intros t T E. destruct T as [T0 [T1|T1]]; [exfalso|lra]. assert (Q := pow_lt1 alpha Ha t 1 T0 T1). rewrite pow1 in Q. lra.
  - intros y. unfold dtlz4_objective, powered. agree3.
Qed.

(** ** DTLZ5 and DTLZ6 *)
Lemma theta_unit : forall G x i, 0 <= G -> 0 <= co x i <= 1 -> 0 <= theta G x i <= 1.
Proof.
  intros G x i HG X. unfold theta. set (n := 5 / 10 * (1 + 2 * co x i * G)).
  assert (N : 0 <= n <= 1 + G) by (unfold n; nra). split.
  - apply Rmult_le_pos; [lra|left; apply Rinv_0_lt_compat; lra].
  - apply (Rmult_le_reg_r (1 + G)); [lra|]. unfold Rdiv. rewrite Rmult_assoc, Rinv_l by lra. lra.
Qed.
Section Curves.
  Variable g : list R -> R.
  Hypothesis Hg : forall x, in_box 0 1 7 x -> 0 <= g x.
  Let ang (x : list R) (i : nat) : R := theta (g x) x i * PI * (5/10).
  Lemma curves_optimal : forall x, in_box 0 1 7 x -> g x = 0 ->
    pareto_optimal (in_box 0 1 7) (fun y => dtlz56_evaluate (g y) y) x /\ dtlz56_evaluate (g x) x = [sqrt 2 / 4; 1/4; 1/4].
  Proof.
    intros x B E. split.
    - apply (optimal_ext (in_box 0 1 7) _ (direct (fun y => sin (ang y 0)) (fun y => cos (ang y 0) * sin (ang y 1))
               (fun y => cos (ang y 0) * cos (ang y 1)) (fun y => 1 + g y) half half half)).
      + intros y. unfold dtlz56_evaluate, direct, half, rungs, ang. apply list3. repeat split; ring.
      + apply (direct_enough (in_box 0 1 7) 2 ltac:(lia)); try exact half_incr.
        * intros y By. assert (Gy := Hg y By).
          apply round_shares; apply unit_acute; apply theta_unit; try exact Gy; apply (box_co 0 1 7 y _ By); lia.
        * intros y By. assert (Gy := Hg y By). lra.
        * exact B.
        * rewrite E. lra.
    - rewrite E. unfold dtlz56_evaluate, rungs, theta.
      replace (5 / 10 * (1 + 2 * co x 0 * 0) / (1 + 0) * PI * (5 / 10)) with (PI / 4) by field.
      replace (5 / 10 * (1 + 2 * co x 1 * 0) / (1 + 0) * PI * (5 / 10)) with (PI / 4) by field.
      rewrite sin_PI4, cos_PI4. assert (S : sqrt 2 * sqrt 2 = 2) by (apply sqrt_def; lra).
      assert (N : sqrt 2 <> 0) by (intros Z; rewrite Z in S; lra).
      assert (J : 1 / sqrt 2 = sqrt 2 / 2) by (apply (Rmult_eq_reg_l (sqrt 2)); [field_simplify; [nra|exact N]|exact N]).
      rewrite J. apply list3. repeat split; [lra|nra|nra].
  Qed.
  (* at (1, 0, ...) the second objective is small *)
  Lemma curves_small : forall y, co y 0 = 1 -> co y 1 = 0 -> 0 < g y -> PI / 4 / (1 + g y) <= 4 / 9 -> 1 + g y <= 9/4 ->
    nth 1 (dtlz56_evaluate (g y) y) 0 < 1/4.
  Proof.
    intros y Y0 Y1 HG S K. unfold dtlz56_evaluate, rungs, theta. cbn [nth]. rewrite Y0, Y1.
    set (b := PI / 4 / (1 + g y)) in *.
    replace (5 / 10 * (1 + 2 * 1 * g y) / (1 + g y) * PI * (5 / 10)) with (PI / 2 - b) by (unfold b; field; lra).
    replace (5 / 10 * (1 + 2 * 0 * g y) / (1 + g y) * PI * (5 / 10)) with b by (unfold b; field; lra).
    rewrite cos_shift. assert (P := PI_RGT_0).
    assert (Pb : 0 < b) by (unfold b; apply Rmult_lt_0_compat; [lra|apply Rinv_0_lt_compat; lra]).
    assert (L := sin_lt_x b Pb). assert (P4 := PI_4).
    assert (P1 := PI2_1). assert (0 < sin b) by (apply sin_gt_0; lra).
    assert (sin b * sin b < 16 / 81) by nra. nra.
  Qed.
End Curves.

Theorem dtlz5_optimal : forall x, in_box 0 1 7 x -> rest_is (1/2) 2 x ->
  pareto_optimal (in_box 0 1 7) dtlz5_evaluate x /\ dtlz5_evaluate x = [sqrt 2 / 4; 1/4; 1/4].
Proof.
  intros x B H. apply (curves_optimal (sphere_g 5)).
  - intros y By. apply (sphere_min 5 y (proj1 By)).
  - exact B.
  - apply (sphere_min 5 x (proj1 B)). exact H.
Qed.
Theorem dtlz6_optimal : forall x, in_box 0 1 7 x -> rest_is 0 2 x ->
  pareto_optimal (in_box 0 1 7) dtlz6_evaluate x /\ dtlz6_evaluate x = [sqrt 2 / 4; 1/4; 1/4].
Proof.
  intros x B H. apply (curves_optimal dtlz6_g).
  - intros y By. apply (dtlz6_min y By).
  - exact B.
  - apply (dtlz6_min x B). exact H.
Qed.
Theorem dtlz5_more : exists y, in_box 0 1 7 y /\
  forall x, in_box 0 1 7 x -> rest_is (1/2) 2 x -> ~ as_good (dtlz5_evaluate x) (dtlz5_evaluate y).
Proof.
  exists [1; 0; 0; 0; 0; 0; 0]. split; [apply corner_box; lra|]. intros x B H D.
  rewrite (proj2 (dtlz5_optimal x B H)) in D.
  assert (E : sphere_g 5 [1; 0; 0; 0; 0; 0; 0] = 5/4) by (unfold sphere_g, accu, co; cbn [seq fold_left nth]; lra).
  assert (S := curves_small (sphere_g 5) [1; 0; 0; 0; 0; 0; 0] eq_refl eq_refl).
  rewrite E in S. assert (P4 := PI_4). specialize (S ltac:(lra) ltac:(lra) ltac:(lra)).
  unfold dtlz5_evaluate in D. rewrite E in D. unfold dtlz56_evaluate, rungs in *. cbn [nth] in S.
  inversion D as [|? ? ? ? D0 D']; subst. inversion D' as [|? ? ? ? D1 D'']; subst. lra.
Qed.

(** ** DTLZ7 *)
Lemma dtlz7_third : forall x, 0 <= dtlz7_g x -> (1 + dtlz7_g x) * dtlz7_h x (dtlz7_g x) =
  3 * (1 + dtlz7_g x) - co x 0 * (1 + cos (PI * 3 * co x 0)) - co x 1 * (1 + cos (PI * 3 * co x 1)).
Proof. intros x G. unfold dtlz7_h. cbn [seq fold_left]. field. lra. Qed.
Theorem dtlz7_needs : forall x, pareto_optimal (in_box 0 1 7) dtlz7_evaluate x -> rest_is 0 2 x.
Proof.
  intros x [B P]. apply (dtlz7_min x B). destruct (dtlz7_min x B) as [[L|E] _]; [exfalso|lra].
  assert (Lx := proj1 B). set (y := move 2 5 0 x).
  assert (By : in_box 0 1 7 y) by (apply (move_box 0 1 2 5); [exact B|lra]).
  assert (Gy : dtlz7_g y = 1) by (apply (dtlz7_min y By); apply move_rest; lia).
  assert (Y0 : co y 0 = co x 0) by (apply move_co; lia). assert (Y1 : co y 1 = co x 1) by (apply move_co; lia).
  assert (S : (1 + dtlz7_g y) * dtlz7_h y (dtlz7_g y) < (1 + dtlz7_g x) * dtlz7_h x (dtlz7_g x)).
  { rewrite (dtlz7_third y), (dtlz7_third x) by lra. rewrite Gy, Y0, Y1. lra. }
  apply (P y By). unfold dtlz7_evaluate. rewrite Y0, Y1. split.
  - apply as_good3; lra.
  - intros Q. injection Q as Q. lra.
Qed.
Theorem dtlz7_half : forall x, in_box 0 1 7 x -> rest_is (1/2) 2 x -> ~ pareto_optimal (in_box 0 1 7) dtlz7_evaluate x.
Proof.
  intros x [L _] H P. apply dtlz7_needs in P. unfold rest_is in *. rewrite Forall_forall in *.
  assert (I : In (nth 0 (skipn 2 x) 0) (skipn 2 x)) by (apply nth_In; rewrite skipn_length; lia).
  assert (A := H _ I). assert (B := P _ I). lra.
Qed.

(** ** MAF2 and MAF5 *)
Theorem maf2_first_two : forall x y, co x 0 = co y 0 -> co x 1 = co y 1 -> maf2_evaluate x = maf2_evaluate y.
Proof. intros x y E0 E1. unfold maf2_evaluate, maf2_g, maf2_theta, downs. cbn. rewrite E0, E1. reflexivity. Qed.
Theorem maf5_vanishes : forall alpha a x, 0 <= a < 1 -> maf5_evaluate alpha (maf5_a a) x = [0; 0; 0].
Proof.
  intros alpha a x H. replace (maf5_a a) with 0%nat.
  - unfold maf5_evaluate. change (INR 0) with 0. apply list3. repeat split; rewrite ?pow_i by lia; ring.
  - unfold maf5_a. destruct (base_Int_part a) as [A B].
    assert (E : Int_part a = 0%Z); [|rewrite E; reflexivity].
    apply Z.le_antisymm; [apply le_IZR|].
    + apply IZR_le. apply Zlt_succ_le. apply lt_IZR. cbn. lra.
    + apply Zlt_succ_le. apply lt_IZR. rewrite succ_IZR. lra.
Qed.

(** ** the reference fronts of DTLZ *)
Definition preimage (w : list R) : list R :=
  [1 - nth 0 w 0; (if Req_EM_T (nth 1 w 0 + nth 2 w 0) 0 then 0 else nth 2 w 0 / (nth 1 w 0 + nth 2 w 0)); 1/2; 1/2; 1/2; 1/2; 1/2].
Lemma preimage_box : forall w, length w = 3%nat -> sumR w = 1 -> (forall a, In a w -> 0 <= a) -> in_box 0 1 7 (preimage w).
Proof.
  intros w L S P. destruct w as [|a [|b [|c [|]]]]; try discriminate. unfold sumR in S. cbn [fold_right] in S.
  assert (A := P a (or_introl eq_refl)). assert (B := P b (or_intror (or_introl eq_refl))).
  assert (C := P c (or_intror (or_intror (or_introl eq_refl)))).
  split; [reflexivity|]. unfold preimage. cbn [nth]. apply Forall_cons; [lra|]. apply Forall_cons.
  - destruct (Req_EM_T (b + c) 0) as [E|E]; [lra|]. assert (0 < b + c) by lra. split.
    + apply Rmult_le_pos; [exact C|left; apply Rinv_0_lt_compat; assumption].
    + apply (Rmult_le_reg_r (b + c)); [assumption|]. unfold Rdiv. rewrite Rmult_assoc, Rinv_l by assumption. lra.
  - repeat (apply Forall_cons; [lra|]). apply Forall_nil.
Qed.
Lemma preimage_rest : forall w, rest_is (1/2) 2 (preimage w).
Proof. intros w. unfold rest_is, preimage. cbn [skipn]. repeat (apply Forall_cons; [reflexivity|]). apply Forall_nil. Qed.
Lemma preimage_value : forall w, length w = 3%nat -> sumR w = 1 -> (forall a, In a w -> 0 <= a) ->
  dtlz1_evaluate (preimage w) = map (Rmult (5/10)) w.
Proof.
  intros w L S P. assert (G : rastrigin_g 5 (preimage w) = 0) by (apply (rastrigin_min 5 (preimage w) eq_refl); apply preimage_rest).
  destruct w as [|a [|b [|c [|]]]]; try discriminate. unfold sumR in S. cbn [fold_right] in S.
  assert (A := P a (or_introl eq_refl)). assert (B := P b (or_intror (or_introl eq_refl))).
  assert (C := P c (or_intror (or_intror (or_introl eq_refl)))).
  unfold dtlz1_evaluate, rungs. rewrite G. unfold preimage, co. cbn [nth map].
  assert (T : 1 - a = b + c) by lra. destruct (Req_EM_T (b + c) 0) as [E|E].
  - assert (b = 0) by lra. assert (c = 0) by lra. subst b c. apply list3. repeat split; nra.
  - rewrite T. apply list3. repeat split; [replace a with (1 - (b + c)) by lra; lra|field; exact E|field; exact E].
Qed.

Theorem dtlz1_front_optimal : forall n p nan, (1 <= p)%nat -> n = choose (p + 2) p -> (Z.of_nat ((3 + n) * (3 + n)) < 2 ^ 64)%Z ->
  exists front fuel0, (forall fuel, (fuel0 <= fuel)%nat -> dtlz1_front fuel n nan = GRet front) /\ length front = n /\ NoDup front /\
    forall v, In v front -> exists x, pareto_optimal (in_box 0 1 7) dtlz1_evaluate x /\ dtlz1_evaluate x = v.
Proof.
  intros n p nan Hp Hn HB.
  destruct (generate_real 0 3 n p nan 0 ltac:(lia) Hp ltac:(rewrite Hn; f_equal; lia) HB) as (ws & fuel0 & G & L & ND & _ & S).
  exists (map (map (Rmult (5/10))) ws), fuel0. split; [|split; [|split]].
  - intros fuel F. unfold dtlz1_front. rewrite (G fuel F). reflexivity.
  - rewrite map_length. exact L.
  - apply map_nodup; [|exact ND]. intros c c' _ _. revert c'. induction c as [|a c IH]; intros [|a' c'] H; try discriminate; [reflexivity|].
    injection H as H0 H1. f_equal; [lra|]. apply IH. exact H1.
  - intros v H. apply in_map_iff in H. destruct H as (w & <- & Hw). destruct (S w Hw) as (S1 & S2 & S3).
    specialize (S3 (Rle_refl 0)). assert (S2' : sumR w = 1) by (rewrite S2; lra).
    exists (preimage w). split; [|apply preimage_value; assumption].
    apply dtlz1_optimal; [apply preimage_box; assumption|apply preimage_rest].
Qed.

Lemma choose_big : forall p, (p + 1 <= choose (p + 2) p)%nat.
Proof.
  induction p as [|p IH]; [cbn; lia|]. replace (S p + 2)%nat with (S (p + 2)) by lia. rewrite choose_S.
  assert (Q := choose_pos (p + 2) (S p) ltac:(lia)). lia.
Qed.
Lemma lattice_number : forall n, {p | (1 <= p)%nat /\ n = choose (p + 2) p} + {forall p, (1 <= p)%nat -> n <> choose (p + 2) p}.
Proof.
  intros n. destruct (existsb (fun p => (n =? choose (p + 2) p)%nat) (seq 1 n)) eqn:E.
  - left. assert (K : exists p, (1 <= p)%nat /\ n = choose (p + 2) p).
    { apply existsb_exists in E. destruct E as (p & I & H). apply in_seq in I. apply Nat.eqb_eq in H. exists p. split; [lia|exact H]. }
    destruct (find (fun p => (n =? choose (p + 2) p)%nat) (seq 1 n)) as [p|] eqn:F.
    + exists p. apply find_some in F. destruct F as [I H]. apply in_seq in I. apply Nat.eqb_eq in H. split; [lia|exact H].
    + exfalso. destruct K as (p & Hp & H). assert (Q := choose_big p).
      assert (Z := find_none _ _ F p ltac:(apply in_seq; lia)). cbn beta in Z. rewrite <- H, Nat.eqb_refl in Z. discriminate.
  - right. intros p Hp H. assert (K : existsb (fun p => (n =? choose (p + 2) p)%nat) (seq 1 n) = true).
    { apply existsb_exists. exists p. split; [apply in_seq; assert (Q := choose_big p); lia|apply Nat.eqb_eq; exact H]. }
    congruence.
Qed.
Theorem dtlz2_front_throws : forall n nan, (Z.of_nat ((3 + n) * (3 + n)) < 2 ^ 64)%Z ->
  exists fuel0, forall fuel, (fuel0 <= fuel)%nat -> dtlz2_front fuel n nan = GThrow.
Proof.
  intros n nan HB. destruct (lattice_number n) as [(p & Hp & Hn)|K].
  - destruct (generate_real 0 3 n p nan 0 ltac:(lia) Hp ltac:(rewrite Hn; f_equal; lia) HB) as (ws & fuel0 & G & L & _).
    exists fuel0. intros fuel F. unfold dtlz2_front. rewrite (G fuel F).
    assert (Q := choose_big p). destruct ws as [|w [|w' ws]]; [cbn in L; lia| |reflexivity].
    cbn in L. destruct p as [|[|p]]; [lia|cbn in Hn; lia|lia].
  - exists n. intros fuel F. unfold dtlz2_front. rewrite (generate_throws (RNum 0) 3 n nan 0); [reflexivity|lia| |exact HB|exact F].
    intros p Hp. unfold points. replace (3 + p - 1)%nat with (p + 2)%nat by lia. apply K. exact Hp.
Qed.

(** ** Schaffer N.1 *)
Lemma schaffer1_agree : forall x, one_by_one 2 schaffer1_objective x = schaffer1_evaluate x. Proof. reflexivity. Qed.
Theorem schaffer1_optimal : forall t, pareto_optimal (fun x => length x = 1%nat) schaffer1_evaluate [t] <-> 0 <= t <= 2.
Proof.
  intros t. split.
  - intros [_ P]. split; apply Rnot_lt_le; intros L.
    + apply (P [0] eq_refl). unfold schaffer1_evaluate, co. cbn [nth]. split; [apply as_good2; nra|]. intros Q. injection Q as Q0 Q1. nra.
    + apply (P [2] eq_refl). unfold schaffer1_evaluate, co. cbn [nth]. split; [apply as_good2; nra|]. intros Q. injection Q as Q0 Q1. nra.
  - intros T. split; [reflexivity|]. intros y Ly [D N]. destruct y as [|s [|]]; try discriminate.
    unfold schaffer1_evaluate, co in *. cbn [nth] in *. inversion D as [|? ? ? ? D0 D']; subst. inversion D' as [|? ? ? ? D1 _]; subst.
    assert (s <= t) by nra. assert (t <= s) by nra. apply N. replace s with t by lra. reflexivity.
Qed.

(** ** Fonseca-Fleming *)
Lemma fonseca_agree : forall x, one_by_one 2 fonseca_objective x = fonseca_evaluate x. Proof. reflexivity. Qed.
Definition from (c : R) (x : list R) : R := (co x 0 - c) ^ 2 + (co x 1 - c) ^ 2 + (co x 2 - c) ^ 2.
Lemma fonseca_value : forall x, fonseca_evaluate x = [1 - exp (- from (1 / sqrt 3) x); 1 - exp (- from (- (1 / sqrt 3)) x)].
Proof.
  intros x. unfold fonseca_evaluate, fonseca_objective, from. f_equal; [|f_equal]; f_equal; f_equal; ring.
Qed.
Lemma exp_up : forall a b, 1 - exp (- a) <= 1 - exp (- b) <-> a <= b.
Proof.
  intros a b. split; intros H.
  - apply Rnot_lt_le. intros L. assert (Q := exp_increasing (- a) (- b) ltac:(lra)). lra.
  - destruct H as [H| ->]; [|lra]. assert (Q := exp_increasing (- b) (- a) ltac:(lra)). lra.
Qed.
Lemma exp_same : forall a b, 1 - exp (- a) = 1 - exp (- b) -> a = b.
Proof. intros a b H. apply Rle_antisym; apply exp_up; lra. Qed.
Lemma sq_le : forall u v, 0 <= v -> u ^ 2 <= v ^ 2 -> u <= v.
Proof. intros u v V H. apply Rnot_lt_le. intros L. nra. Qed.
Theorem fonseca_optimal : forall x, length x = 3%nat ->
  (pareto_optimal (fun x => length x = 3%nat) fonseca_evaluate x <->
   exists t, x = [t; t; t] /\ - (1 / sqrt 3) <= t <= 1 / sqrt 3).
Proof.
  intros x L. set (c := 1 / sqrt 3).
  assert (C : 0 < c) by (unfold c; apply Rdiv_lt_0_compat; [lra|apply sqrt_lt_R0; lra]).
  destruct x as [|a [|b [|d [|]]]]; try discriminate. clear L.
  set (m := (a + b + d) / 3). set (V := (a - m) ^ 2 + (b - m) ^ 2 + (d - m) ^ 2).
  assert (V0 : 0 <= V) by (unfold V; assert (Q1 := pow2_ge_0 (a - m)); assert (Q2 := pow2_ge_0 (b - m)); assert (Q3 := pow2_ge_0 (d - m)); lra).
  assert (F : forall r, from r [a; b; d] = 3 * (m - r) ^ 2 + V) by (intros r; unfold from, V, co, m; cbn [nth]; field).
  assert (T : forall t r, from r [t; t; t] = 3 * (t - r) ^ 2) by (intros t r; unfold from, co; cbn [nth]; ring).
  split.
  - intros [_ P].
    assert (NB : forall t, 3 * (t - c) ^ 2 <= 3 * (m - c) ^ 2 + V -> 3 * (t + c) ^ 2 <= 3 * (m + c) ^ 2 + V ->
       3 * (t - c) ^ 2 = 3 * (m - c) ^ 2 + V /\ 3 * (t + c) ^ 2 = 3 * (m + c) ^ 2 + V).
    { intros t H1 H2.
      assert (J : ~ fonseca_evaluate [t; t; t] <> fonseca_evaluate [a; b; d]).
      { intros N. apply (P [t; t; t] eq_refl). split; [|exact N]. rewrite !fonseca_value. fold c. rewrite !F, !T.
        apply as_good2; apply exp_up; [exact H1|]. replace (t - - c) with (t + c) by ring. replace (m - - c) with (m + c) by ring. exact H2. }
      destruct (Req_dec (3 * (t - c) ^ 2) (3 * (m - c) ^ 2 + V)) as [E1|E1], (Req_dec (3 * (t + c) ^ 2) (3 * (m + c) ^ 2 + V)) as [E2|E2];
        [split; assumption|exfalso..]; apply J; rewrite !fonseca_value; fold c; rewrite !F, !T; intros Q; injection Q as Q0 Q1;
        apply exp_same in Q0, Q1; replace (t - - c) with (t + c) in Q1 by ring; replace (m - - c) with (m + c) in Q1 by ring; contradiction. }
    assert (VZ : V = 0) by (destruct (NB m ltac:(lra) ltac:(lra)); lra).
    assert (Q1 := pow2_ge_0 (a - m)). assert (Q2 := pow2_ge_0 (b - m)). assert (Q3 := pow2_ge_0 (d - m)). unfold V in VZ.
    assert (A : a = m) by nra. assert (B : b = m) by nra. assert (D : d = m) by nra.
    exists m. split; [congruence|]. fold V in VZ. rewrite VZ in NB. split; apply Rnot_lt_le; intros K.
    + destruct (NB (- c)); nra.
    + destruct (NB c); nra.
  - intros (t & E & K). injection E as -> -> ->. split; [reflexivity|]. intros y Ly [D N].
    destruct y as [|a' [|b' [|d' [|]]]]; try discriminate. rewrite !fonseca_value in D. fold c in D. rewrite !T in D.
    inversion D as [|? ? ? ? D0 D']; subst. inversion D' as [|? ? ? ? D1 _]; subst. apply (proj1 (exp_up _ _)) in D0; apply (proj1 (exp_up _ _)) in D1.
    set (s := (a' + b' + d') / 3). set (W := (a' - s) ^ 2 + (b' - s) ^ 2 + (d' - s) ^ 2).
    assert (W0 : 0 <= W) by (unfold W; assert (Q1 := pow2_ge_0 (a' - s)); assert (Q2 := pow2_ge_0 (b' - s)); assert (Q3 := pow2_ge_0 (d' - s)); lra).
    assert (F' : forall r, from r [a'; b'; d'] = 3 * (s - r) ^ 2 + W) by (intros r; unfold from, W, co, s; cbn [nth]; field).
    rewrite F' in D0, D1. assert (c - s <= c - t) by (apply sq_le; [lra|]; replace ((c - s) ^ 2) with ((s - c) ^ 2) by ring; replace ((c - t) ^ 2) with ((t - c) ^ 2) by ring; lra).
    assert (s + c <= t + c) by (apply sq_le; [lra|]; replace (s + c) with (s - - c) by ring; replace (t + c) with (t - - c) by ring; lra). assert (ST : s = t) by lra.
    assert (WZ : W = 0) by (rewrite ST in *; lra).
    assert (Q1 := pow2_ge_0 (a' - s)). assert (Q2 := pow2_ge_0 (b' - s)). assert (Q3 := pow2_ge_0 (d' - s)). unfold W in WZ.
    assert (A' : a' = t) by nra. assert (B' : b' = t) by nra. assert (D'' : d' = t) by nra. apply N. congruence.
Qed.
