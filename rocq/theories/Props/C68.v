(** C68: the multi-objective test problems: which points are Pareto-optimal, and whether the
    objectives handed to an optimizer are those of Evaluate. *)
From Coq Require Import List Arith Reals ZArith Lia Lra Psatz.
From Verif.Base Require Import Num Instances.
From Verif.Model Require Import Problems MultiProblems DasDennis.
From Verif.Spec Require Import MultiSpec DasDennisSpec LpSpec.
From Verif.Proof Require Import MultiProof MultiZdt MultiDtlz MultiMore.
Import ListNotations.
Local Open Scope R_scope.

(** ** the objectives one by one are those of Evaluate *)
Theorem C68_agree_two : forall x,
  one_by_one 2 zdt1_objective x = zdt1_evaluate x /\ one_by_one 2 zdt2_objective x = zdt2_evaluate x /\
  one_by_one 2 zdt3_objective x = zdt3_evaluate x /\ one_by_one 2 zdt4_objective x = zdt4_evaluate x /\
  one_by_one 2 zdt6_objective x = zdt6_evaluate x /\ one_by_one 2 schaffer1_objective x = schaffer1_evaluate x /\
  one_by_one 2 fonseca_objective x = fonseca_evaluate x.
Proof. intros x. repeat split. Qed.
Print Assumptions C68_agree_two.

Theorem C68_agree_three : forall x, one_by_one 3 dtlz7_objective x = dtlz7_evaluate x /\
  one_by_one 3 maf1_objective x = maf1_evaluate x /\ one_by_one 3 maf2_objective x = maf2_evaluate x /\
  one_by_one 3 maf3_objective x = maf3_evaluate x /\
  (forall n, one_by_one 3 (maf4_objective (INR n)) x = maf4_evaluate (INR n) x) /\
  (forall alpha a, one_by_one 3 (maf5_objective alpha a) x = maf5_evaluate alpha a x) /\
  (forall I, one_by_one 3 (maf6_objective I) x = maf6_evaluate I x).
Proof.
  intros x. repeat apply conj; intros; [apply dtlz7_agree|apply maf1_agree|apply maf2_agree|apply maf3_agree|apply maf4_agree|apply maf5_agree|apply maf6_agree].
Qed.
Print Assumptions C68_agree_three.

(** ** the Pareto-optimal points: all other variables 0, all distance variables 1/2 *)
Theorem C68_zdt1 : forall x, in_box 0 1 30 x -> (pareto_optimal (in_box 0 1 30) zdt1_evaluate x <-> rest_is 0 1 x).
Proof. exact zdt1_optimal. Qed.
Print Assumptions C68_zdt1.
Theorem C68_zdt2 : forall x, in_box 0 1 30 x -> (pareto_optimal (in_box 0 1 30) zdt2_evaluate x <-> rest_is 0 1 x).
Proof. exact zdt2_optimal. Qed.
Print Assumptions C68_zdt2.
Theorem C68_zdt3 : forall x, pareto_optimal (in_box 0 1 30) zdt3_evaluate x -> rest_is 0 1 x.
Proof. exact zdt3_needs. Qed.
Print Assumptions C68_zdt3.
Theorem C68_zdt4 : forall x, zdt4_box x -> (pareto_optimal zdt4_box zdt4_evaluate x <-> rest_is 0 1 x).
Proof. exact zdt4_optimal. Qed.
Print Assumptions C68_zdt4.
Theorem C68_zdt6 : forall x, in_box 0 1 10 x -> (pareto_optimal (in_box 0 1 10) zdt6_evaluate x <-> rest_is 0 1 x).
Proof. exact zdt6_optimal. Qed.
Print Assumptions C68_zdt6.

(** the optimal set of each is not empty and not everything *)
Example C68_zdt_ex : forall v, 0 <= v <= 1 ->
  pareto_optimal (in_box 0 1 30) zdt1_evaluate (v :: repeat 0 29) /\ pareto_optimal zdt4_box zdt4_evaluate (v :: repeat 0 9) /\
  ~ pareto_optimal (in_box 0 1 30) zdt1_evaluate (v :: repeat 1 29).
Proof.
  intros v V. split; [apply C68_zdt1; [exact (axis_box 29 v V)|apply axis_rest]|]. split; [apply C68_zdt4; [exact (axis_zdt4 v V)|apply axis_rest]|].
  intros P. assert (H := proj1 (C68_zdt1 _ (proj1 P)) P). unfold rest_is in H. cbn in H. inversion H; subst. lra.
Qed.

Theorem C68_dtlz1 : forall x, in_box 0 1 7 x ->
  (pareto_optimal (in_box 0 1 7) dtlz1_evaluate x <-> rest_is (1/2) 2 x) /\ (rest_is (1/2) 2 x -> sumR (dtlz1_evaluate x) = 1/2).
Proof. intros x B. split; [exact (dtlz1_optimal x B)|exact (dtlz1_plane x B)]. Qed.
Print Assumptions C68_dtlz1.
Theorem C68_dtlz2 : forall x, in_box 0 1 7 x ->
  (pareto_optimal (in_box 0 1 7) dtlz2_evaluate x <-> rest_is (1/2) 2 x) /\
  (rest_is (1/2) 2 x -> sumR (map (fun f => f ^ 2) (dtlz2_evaluate x)) = 1/4).
Proof. intros x B. split; [exact (dtlz2_optimal x B)|exact (dtlz2_sphere x B)]. Qed.
Print Assumptions C68_dtlz2.
Theorem C68_dtlz3 : forall x, in_box 0 1 7 x ->
  (pareto_optimal (in_box 0 1 7) dtlz3_evaluate x <-> rest_is (1/2) 2 x) /\
  (rest_is (1/2) 2 x -> sumR (map (fun f => f ^ 2) (dtlz3_evaluate x)) = 1/4).
Proof. intros x B. split; [exact (dtlz3_optimal x B)|exact (dtlz3_sphere x B)]. Qed.
Print Assumptions C68_dtlz3.
Theorem C68_dtlz4 : forall alpha x, in_box 0 1 7 x ->
  (pareto_optimal (in_box 0 1 7) (dtlz4_evaluate alpha) x <-> rest_is (1/2) 2 x) /\
  (rest_is (1/2) 2 x -> sumR (map (fun f => f ^ 2) (dtlz4_evaluate alpha x)) = 1/4).
Proof. intros alpha x B. split; [exact (dtlz4_optimal alpha x B)|exact (dtlz4_sphere alpha x B)]. Qed.
Print Assumptions C68_dtlz4.
(** DTLZ5 and DTLZ6: with the distance variables at 1/2 (DTLZ6: at 0) a point is optimal, and all
    these points have the same objectives. *)
Theorem C68_dtlz5 : forall x, in_box 0 1 7 x -> rest_is (1/2) 2 x ->
  pareto_optimal (in_box 0 1 7) dtlz5_evaluate x /\ dtlz5_evaluate x = [sqrt 2 / 4; 1/4; 1/4].
Proof. exact dtlz5_optimal. Qed.
Print Assumptions C68_dtlz5.
Theorem C68_dtlz6 : forall x, in_box 0 1 7 x -> rest_is 0 2 x ->
  pareto_optimal (in_box 0 1 7) dtlz6_evaluate x /\ dtlz6_evaluate x = [sqrt 2 / 4; 1/4; 1/4].
Proof. exact dtlz6_optimal. Qed.
Print Assumptions C68_dtlz6.
Theorem C68_dtlz7 : forall x, pareto_optimal (in_box 0 1 7) dtlz7_evaluate x -> rest_is 0 2 x.
Proof. exact dtlz7_needs. Qed.
Print Assumptions C68_dtlz7.
Theorem C68_maf1 : forall x, in_box 0 1 12 x -> (pareto_optimal (in_box 0 1 12) maf1_evaluate x <-> rest_is (1/2) 2 x).
Proof. exact maf1_optimal. Qed.
Print Assumptions C68_maf1.
Theorem C68_maf3 : forall x, in_box 0 1 12 x -> (pareto_optimal (in_box 0 1 12) maf3_evaluate x <-> rest_is (1/2) 2 x).
Proof. exact maf3_optimal. Qed.
Print Assumptions C68_maf3.
Theorem C68_maf4 : forall a x, 0 < a -> in_box 0 1 12 x ->
  (pareto_optimal (in_box 0 1 12) (maf4_evaluate a) x <-> rest_is (1/2) 2 x).
Proof. exact maf4_optimal. Qed.
Print Assumptions C68_maf4.
Theorem C68_maf5 : forall alpha a x, (0 < a)%nat -> in_box 0 1 12 x ->
  (pareto_optimal (in_box 0 1 12) (maf5_evaluate alpha a) x <-> rest_is (1/2) 2 x).
Proof. exact maf5_optimal. Qed.
Print Assumptions C68_maf5.
Theorem C68_maf6 : forall I x, (2 <= I)%nat -> in_box 0 1 12 x ->
  (pareto_optimal (in_box 0 1 12) (maf6_evaluate I) x <-> rest_is (1/2) 2 x).
Proof. exact maf6_optimal. Qed.
Print Assumptions C68_maf6.

Example C68_dtlz_ex : let x := [1/3; 3/4; 1/2; 1/2; 1/2; 1/2; 1/2] in let y := [1/3; 3/4; 1/2; 1/2; 0; 1/2; 1/2] in
  in_box 0 1 7 x /\ in_box 0 1 7 y /\ pareto_optimal (in_box 0 1 7) dtlz1_evaluate x /\ ~ pareto_optimal (in_box 0 1 7) dtlz1_evaluate y.
Proof.
  cbv zeta.
  assert (X : in_box 0 1 7 [1/3; 3/4; 1/2; 1/2; 1/2; 1/2; 1/2]) by (split; [reflexivity|repeat (apply Forall_cons; [lra|]); apply Forall_nil]).
  assert (Y : in_box 0 1 7 [1/3; 3/4; 1/2; 1/2; 0; 1/2; 1/2]) by (split; [reflexivity|repeat (apply Forall_cons; [lra|]); apply Forall_nil]).
  split; [exact X|]. split; [exact Y|]. split.
  - apply (C68_dtlz1 _ X). unfold rest_is. cbn [skipn]. repeat (apply Forall_cons; [lra|]). apply Forall_nil.
  - intros P. apply (C68_dtlz1 _ Y) in P. unfold rest_is in P. cbn [skipn] in P.
    inversion P as [|? ? _ P1]; subst. inversion P1 as [|? ? _ P2]; subst. inversion P2; subst. lra.
Qed.

Theorem C68_schaffer : forall t, pareto_optimal (fun x => length x = 1%nat) schaffer1_evaluate [t] <-> 0 <= t <= 2.
Proof. exact schaffer1_optimal. Qed.
Print Assumptions C68_schaffer.
Theorem C68_fonseca : forall x, length x = 3%nat ->
  (pareto_optimal (fun x => length x = 3%nat) fonseca_evaluate x <->
   exists t, x = [t; t; t] /\ - (1 / sqrt 3) <= t <= 1 / sqrt 3).
Proof. exact fonseca_optimal. Qed.
Print Assumptions C68_fonseca.
Example C68_fonseca_ex : pareto_optimal (fun x => length x = 3%nat) fonseca_evaluate [0; 0; 0] /\
  ~ pareto_optimal (fun x => length x = 3%nat) fonseca_evaluate [0; 0; 1/10].
Proof.
  assert (C : 0 < 1 / sqrt 3) by (apply Rdiv_lt_0_compat; [lra|apply sqrt_lt_R0; lra]).
  split; [apply C68_fonseca; [reflexivity|]; exists 0; split; [reflexivity|lra]|].
  intros P. apply C68_fonseca in P; [|reflexivity]. destruct P as (t & E & _). injection E as <- E'. lra.
Qed.

(** ** the reference fronts *)
Theorem C68_front_zdt1 : forall n, length (zdt1_front n) = n /\ forall p, In p (zdt1_front n) ->
  exists x, pareto_optimal (in_box 0 1 30) zdt1_evaluate x /\ zdt1_evaluate x = p.
Proof. intros n. split; [apply zdt_front_length|exact (zdt1_front_optimal n)]. Qed.
Print Assumptions C68_front_zdt1.
Theorem C68_front_zdt2 : forall n, length (zdt2_front n) = n /\ forall p, In p (zdt2_front n) ->
  exists x, pareto_optimal (in_box 0 1 30) zdt2_evaluate x /\ zdt2_evaluate x = p.
Proof. intros n. split; [apply zdt_front_length|exact (zdt2_front_optimal n)]. Qed.
Print Assumptions C68_front_zdt2.
(** ZDT3: values of feasible points with all other variables zero *)
Theorem C68_front_zdt3 : forall n, length (zdt3_front n) = (5 * (n / 5))%nat /\ forall p, In p (zdt3_front n) ->
  exists x, in_box 0 1 30 x /\ rest_is 0 1 x /\ zdt3_evaluate x = p.
Proof. intros n. split; [apply zdt_front_length|exact (zdt3_front_attained n)]. Qed.
Print Assumptions C68_front_zdt3.
Theorem C68_front_zdt4 : forall n, length (zdt4_front n) = n /\ forall p, In p (zdt4_front n) ->
  exists x, pareto_optimal zdt4_box zdt4_evaluate x /\ zdt4_evaluate x = p.
Proof. intros n. split; [apply zdt_front_length|exact (zdt4_front_optimal n)]. Qed.
Print Assumptions C68_front_zdt4.
(** ZDT6: no feasible point dominates a point of the front *)
Theorem C68_front_zdt6 : forall n, length (zdt6_front n) = n /\ forall p y, In p (zdt6_front n) -> in_box 0 1 10 y ->
  ~ dominates (zdt6_evaluate y) p.
Proof. intros n. split; [apply zdt_front_length|exact (zdt6_front_undominated n)]. Qed.
Print Assumptions C68_front_zdt6.
Example C68_front_ex : forall n, (2 <= n)%nat -> In [0; 1] (zdt1_front n) /\ In [1; 0] (zdt1_front n).
Proof.
  intros n H. destruct (zdt_front_ends n H) as [A B]. rewrite sqrt_0 in A. rewrite sqrt_1 in B.
  replace (1 - 0) with 1 in A by ring. replace (1 - 1) with 0 in B by ring. auto.
Qed.
(** DTLZ1: for a number of points the weight generator accepts *)
Theorem C68_front_dtlz1 : forall n p nan, (1 <= p)%nat -> n = choose (p + 2) p -> (Z.of_nat ((3 + n) * (3 + n)) < 2 ^ 64)%Z ->
  exists front fuel0, (forall fuel, (fuel0 <= fuel)%nat -> dtlz1_front fuel n nan = GRet front) /\ length front = n /\ NoDup front /\
    forall v, In v front -> exists x, pareto_optimal (in_box 0 1 7) dtlz1_evaluate x /\ dtlz1_evaluate x = v.
Proof. exact dtlz1_front_optimal. Qed.
Print Assumptions C68_front_dtlz1.
Example C68_front_dtlz1_ex : (1 <= 15)%nat /\ 136%nat = choose (15 + 2) 15 /\ (Z.of_nat ((3 + 136) * (3 + 136)) < 2 ^ 64)%Z.
Proof. split; [lia|]. split; vm_compute; reflexivity. Qed.

(** ** what is not so *)
(** The objectives that DTLZ1..6 hand to an optimizer are not those of Evaluate: the third has one
    factor too many, and in DTLZ2..6 all are doubled. *)
Theorem C68_dtlz_objectives : forall x,
  one_by_one 3 dtlz1_objective x = match dtlz1_evaluate x with [a; b; c] => [a; b; c * co x 2] | l => l end /\
  one_by_one 3 dtlz2_objective x = match dtlz2_evaluate x with [a; b; c] => [2 * a; 2 * b; 2 * c * cos (co x 2 * PI * (5/10))] | l => l end /\
  one_by_one 3 dtlz3_objective x = match dtlz3_evaluate x with [a; b; c] => [2 * a; 2 * b; 2 * c * cos (co x 2 * PI * (5/10))] | l => l end /\
  (forall alpha, one_by_one 3 (dtlz4_objective alpha) x =
     match dtlz4_evaluate alpha x with [a; b; c] => [2 * a; 2 * b; 2 * c * cos (co x 2 ^ alpha * PI * (5/10))] | l => l end) /\
  one_by_one 3 dtlz5_objective x =
    match dtlz5_evaluate x with [a; b; c] => [2 * a; 2 * b; 2 * c * cos (theta (sphere_g 5 x) x 2 * PI * (5/10))] | l => l end /\
  one_by_one 3 dtlz6_objective x =
    match dtlz6_evaluate x with [a; b; c] => [2 * a; 2 * b; 2 * c * cos (theta (dtlz6_g x) x 2 * PI * (5/10))] | l => l end.
Proof.
  intros x. repeat apply conj; intros; [apply dtlz1_relation|apply dtlz2_relation|apply dtlz3_relation|apply dtlz4_relation|apply dtlz56_relation|apply dtlz56_relation].
Qed.
Print Assumptions C68_dtlz_objectives.
(** So an optimizer given DTLZ1..4 works on another problem: there is one optimal vector,
    (0, 0, 0), its points are those below, and no documented optimum is among them. *)
Theorem C68_dtlz_seen_refuted : forall x, in_box 0 1 7 x ->
  (pareto_optimal (in_box 0 1 7) (one_by_one 3 dtlz1_objective) x <-> co x 0 = 1 /\ co x 1 = 1 /\ co x 2 = 0) /\
  (pareto_optimal (in_box 0 1 7) (one_by_one 3 dtlz2_objective) x <-> co x 0 = 0 /\ co x 1 = 0 /\ co x 2 = 1) /\
  (pareto_optimal (in_box 0 1 7) (one_by_one 3 dtlz3_objective) x <-> co x 0 = 0 /\ co x 1 = 0 /\ co x 2 = 1) /\
  (forall alpha, (1 <= alpha)%nat ->
    (pareto_optimal (in_box 0 1 7) (one_by_one 3 (dtlz4_objective alpha)) x <-> co x 0 = 0 /\ co x 1 = 0 /\ co x 2 = 1)).
Proof.
  intros x B. refine (conj _ (conj _ (conj _ _))); [exact (dtlz1_seen x B)|exact (dtlz2_seen x B)|exact (dtlz3_seen x B)|].
  intros alpha H. exact (dtlz4_seen alpha x H B).
Qed.
Print Assumptions C68_dtlz_seen_refuted.
(** The documented optimum of DTLZ7, distance variables 1/2, is never optimal. *)
Theorem C68_dtlz7_half_refuted : forall x, in_box 0 1 7 x -> rest_is (1/2) 2 x ->
  ~ pareto_optimal (in_box 0 1 7) dtlz7_evaluate x.
Proof. exact dtlz7_half. Qed.
Print Assumptions C68_dtlz7_half_refuted.
(** The documented optima of DTLZ5 are one objective vector and not all there is: some point has
    none of them as good as itself. *)
Theorem C68_dtlz5_all_refuted : exists y, in_box 0 1 7 y /\
  forall x, in_box 0 1 7 x -> rest_is (1/2) 2 x -> ~ as_good (dtlz5_evaluate x) (dtlz5_evaluate y).
Proof. exact dtlz5_more. Qed.
Print Assumptions C68_dtlz5_all_refuted.
(** MAF2 never reads its distance variables. *)
Theorem C68_maf2_refuted : forall x y, co x 0 = co y 0 -> co x 1 = co y 1 -> maf2_evaluate x = maf2_evaluate y.
Proof. exact maf2_first_two. Qed.
Print Assumptions C68_maf2_refuted.
(** MAF4 with a parameter that is no whole number: Evaluate uses it, the objectives its whole part. *)
Theorem C68_maf4_refuted : (forall a x, one_by_one 3 (maf4_objective a) x = maf4_evaluate (IZR (Int_part a)) x) /\
  exists x, in_box 0 1 12 x /\ one_by_one 3 (maf4_objective (5/2)) x <> maf4_evaluate (5/2) x.
Proof.
  split; [exact maf4_relation|]. exists (repeat 0 12). split; [split; [reflexivity|cbn; repeat (apply Forall_cons; [lra|]); apply Forall_nil]|].
  rewrite maf4_relation. intros E.
  assert (G : 0 <= rastrigin_g 10 (repeat 0 12)) by (apply (rastrigin_min 10 (repeat 0 12)); reflexivity).
  assert (T : trunc (5/2) = 2).
  { unfold trunc. assert (Q : Int_part (5/2) = 2%Z); [|rewrite Q; reflexivity]. destruct (base_Int_part (5/2)) as [A B].
    apply Z.le_antisymm; [apply Zlt_succ_le, lt_IZR; cbn; lra|apply Zlt_succ_le, lt_IZR; rewrite succ_IZR; lra]. }
  rewrite T in E. unfold maf4_evaluate, downs, quarter, co in E. injection E as E _ _. cbn [seq fold_left repeat nth] in E.
  rewrite !Rmult_0_l, sin_0 in E. cbn [repeat] in G. lra.
Qed.
Print Assumptions C68_maf4_refuted.
(** MAF5 with a parameter below one is zero everywhere: the member is an integer. *)
Theorem C68_maf5_refuted : forall alpha a x, 0 <= a < 1 -> maf5_evaluate alpha (maf5_a a) x = [0; 0; 0].
Proof. exact maf5_vanishes. Qed.
Print Assumptions C68_maf5_refuted.
(** The reference front of DTLZ2, DTLZ3 and DTLZ4 is never returned, whatever the number of points. *)
Theorem C68_front_dtlz2_refuted : forall n nan, (Z.of_nat ((3 + n) * (3 + n)) < 2 ^ 64)%Z ->
  exists fuel0, forall fuel, (fuel0 <= fuel)%nat -> dtlz2_front fuel n nan = GThrow.
Proof. exact dtlz2_front_throws. Qed.
Print Assumptions C68_front_dtlz2_refuted.
