(** The DTLZ and MAF problems. *)
From Coq Require Import List Arith Bool Reals ZArith Lia Lra Psatz.
From Verif.Base Require Import Num Instances.
From Verif.Model Require Import Problems MultiProblems DasDennis.
From Verif.Spec Require Import MultiSpec DasDennisSpec LpSpec.
From Verif.Proof Require Import MultiProof DasDennisProof DasDennisReal.
Import ListNotations.
Local Open Scope R_scope.

(** ** the distance terms *)
Lemma sphere_min : forall k x, length x = (2 + k)%nat -> 0 <= sphere_g k x /\ (sphere_g k x = 0 <-> rest_is (1/2) 2 x).
Proof.
  intros k x L. unfold sphere_g. change (5/10) with (5 * / 10).
  destruct (accu_min (fun a => (a - 5 * / 10) ^ 2) 0 (1/2) 2 k x (fun _ => True) L) as [G E].
  - intros; exact I.
  - intros a _. apply pow2_ge_0.
  - intros a _. split; [intros H|intros ->; lra]. assert (a - 5 * / 10 = 0) by nra. lra.
  - rewrite Rmult_0_l in *. split; assumption.
Qed.
Lemma rastrigin_min : forall k x, length x = (2 + k)%nat -> 0 <= rastrigin_g k x /\ (rastrigin_g k x = 0 <-> rest_is (1/2) 2 x).
Proof.
  intros k x L. unfold rastrigin_g. change (5/10) with (5 * / 10).
  destruct (accu_min (fun a => (a - 5 * / 10) ^ 2 - cos (20 * PI * (a - 5 * / 10))) (-1) (1/2) 2 k x (fun _ => True) L) as [G E].
  - intros; exact I.
  - intros a _. assert (Q := COS_bound (20 * PI * (a - 5 * / 10))). assert (0 <= (a - 5 * / 10) ^ 2) by apply pow2_ge_0. lra.
  - intros a _. assert (Q := COS_bound (20 * PI * (a - 5 * / 10))). split.
    + intros H. assert ((a - 5 * / 10) ^ 2 <= 0) by lra. nra.
    + intros ->. replace (1 / 2 - 5 * / 10) with 0 by lra. rewrite Rmult_0_r, cos_0. lra.
  - split; [nra|]. rewrite <- E. split; intros; lra.
Qed.
Lemma pow01_min : forall a, 0 <= a -> 0 <= pow01 a /\ (pow01 a = 0 <-> a = 0).
Proof.
  intros a H. unfold pow01. destruct (Rle_dec a 0) as [L|L]; [split; [lra|split; intros; lra]|].
  assert (P : 0 < Rpower a (1/10)) by apply exp_pos. split; [lra|]. split; intros; lra.
Qed.
Lemma dtlz6_min : forall x, in_box 0 1 7 x -> 0 <= dtlz6_g x /\ (dtlz6_g x = 0 <-> rest_is 0 2 x).
Proof.
  intros x B. unfold dtlz6_g.
  destruct (accu_min pow01 0 0 2 5 x (fun a => 0 <= a) (proj1 B)) as [G E].
  - intros i Hi. apply in_seq in Hi. apply (box_co 0 1 7 x i B). lia.
  - intros a Ha. apply pow01_min. exact Ha.
  - intros a Ha. apply pow01_min. exact Ha.
  - rewrite Rmult_0_l in *. split; assumption.
Qed.
Lemma dtlz7_min : forall x, in_box 0 1 7 x -> 1 <= dtlz7_g x /\ (dtlz7_g x = 1 <-> rest_is 0 2 x).
Proof.
  intros x B. unfold dtlz7_g.
  destruct (accu_min (fun a => a) 0 0 2 5 x (fun a => 0 <= a) (proj1 B)) as [G E].
  - intros i Hi. apply in_seq in Hi. apply (box_co 0 1 7 x i B). lia.
  - intros a Ha. exact Ha.
  - intros a Ha. tauto.
  - rewrite Rmult_0_l in *. split; [lra|]. rewrite <- E. split; intros; lra.
Qed.

(** ** the shares *)
Lemma optimal_ext : forall feasible F F' x, (forall y, F y = F' y) ->
  (pareto_optimal feasible F x <-> pareto_optimal feasible F' x).
Proof. intros feasible F F' x E. unfold pareto_optimal. split; intros [A B]; split; try exact A; intros y; [rewrite <- !E|rewrite !E]; apply B. Qed.

Lemma linear_shares : forall a b, 0 <= a <= 1 -> 0 <= b <= 1 ->
  0 <= 1 - a /\ 0 <= a * (1 - b) /\ 0 <= a * b /\ (1 - a) ^ 1 + (a * (1 - b)) ^ 1 + (a * b) ^ 1 = 1.
Proof. intros a b A B. repeat split; try nra. Qed.
Definition acute (a : R) : Prop := 0 <= a <= PI / 2.
Lemma acute_sin : forall a, acute a -> 0 <= sin a. Proof. intros a [L U]. apply sin_ge_0; [exact L|assert (Q := PI_RGT_0); lra]. Qed.
Lemma acute_cos : forall a, acute a -> 0 <= cos a. Proof. intros a [L U]. apply cos_ge_0; [assert (Q := PI_RGT_0); lra|exact U]. Qed.
Lemma round_shares : forall a b, acute a -> acute b ->
  0 <= sin a /\ 0 <= cos a * sin b /\ 0 <= cos a * cos b /\ sin a ^ 2 + (cos a * sin b) ^ 2 + (cos a * cos b) ^ 2 = 1.
Proof.
  intros a b A B. assert (0 <= sin a) by (apply acute_sin; exact A). assert (0 <= cos a) by (apply acute_cos; exact A).
  assert (0 <= sin b) by (apply acute_sin; exact B). assert (0 <= cos b) by (apply acute_cos; exact B).
  repeat split; try (apply Rmult_le_pos; assumption); [assumption|].
  assert (P := sin2_cos2 a). assert (Q := sin2_cos2 b). unfold Rsqr in *.
  replace (sin a ^ 2 + (cos a * sin b) ^ 2 + (cos a * cos b) ^ 2) with
    (sin a * sin a + cos a * cos a * (sin b * sin b + cos b * cos b)) by ring. rewrite Q. lra.
Qed.
Lemma unit_acute : forall t, 0 <= t <= 1 -> acute (t * PI * (5/10)).
Proof. intros t H. unfold acute. assert (Q := PI_RGT_0). split; nra. Qed.
Lemma pow_unit : forall n a, 0 <= a <= 1 -> 0 <= a ^ n <= 1.
Proof. intros n a H. split; [apply pow_le; lra|]. rewrite <- (pow1 n). apply pow_incr. exact H. Qed.
Lemma quarter_acute : forall n x i, in_box 0 1 n x -> (i < n)%nat -> acute (quarter x i).
Proof. intros n x i B H. apply unit_acute. exact (box_co 0 1 n x i B H). Qed.
Lemma powered_acute : forall alpha n x i, in_box 0 1 n x -> (i < n)%nat -> acute (powered alpha x i).
Proof. intros alpha n x i B H. apply unit_acute. apply pow_unit. exact (box_co 0 1 n x i B H). Qed.

Lemma dtlz_move : forall k x, in_box 0 1 (2 + k) x ->
  in_box 0 1 (2 + k) (move 2 k (1/2) x) /\ rest_is (1/2) 2 (move 2 k (1/2) x) /\
  co (move 2 k (1/2) x) 0 = co x 0 /\ co (move 2 k (1/2) x) 1 = co x 1.
Proof.
  intros k x B. assert (L := proj1 B). split; [apply move_box; [exact B|lra]|]. split; [apply move_rest; lia|].
  split; apply move_co; lia.
Qed.

Lemma incr_scale : forall c, 0 < c -> incr (fun t => c * t).
Proof. intros c C a b A L. nra. Qed.
Lemma incr_pow : forall c n, 0 < c -> (1 <= n)%nat -> incr (fun t => c * t ^ n).
Proof. intros c n C Hn a b A L. apply Rmult_lt_compat_l; [exact C|]. apply pow_lt1; assumption. Qed.

(** the problems with shares of a line / of a sphere *)
Section Family.
  Variable k : nat.
  Variable g : list R -> R.
  Hypothesis Hg : forall x, length x = (2 + k)%nat -> 0 <= g x /\ (g x = 0 <-> rest_is (1/2) 2 x).
  Variable c : R.
  Hypothesis Hc : 0 < c.
  Let box := in_box 0 1 (2 + k).
  Let h (x : list R) : R := 1 + c * g x.
  Lemma family_h : forall x, box x -> 1 <= h x.
  Proof. intros x B. unfold h. assert (Q := proj1 (Hg x (proj1 B))). nra. Qed.
  Lemma family_h1 : forall x, box x -> (h x = 1 <-> rest_is (1/2) 2 x).
  Proof.
    intros x B. unfold h. rewrite <- (proj2 (Hg x (proj1 B))). split; intros E; [|rewrite E; lra].
    assert (c * g x = 0) by lra. apply Rmult_integral in H. destruct H; [lra|assumption].
  Qed.

  (* the angles, from the first two coordinates *)
  Variable ang : R -> R.
  Hypothesis Hang : forall t, 0 <= t <= 1 -> acute (ang t).
  Let r0 (x : list R) : R := sin (ang (co x 0)).
  Let r1 (x : list R) : R := cos (ang (co x 0)) * sin (ang (co x 1)).
  Let r2 (x : list R) : R := cos (ang (co x 0)) * cos (ang (co x 1)).
  Let l0 (x : list R) : R := 1 - co x 0.
  Let l1 (x : list R) : R := co x 0 * (1 - co x 1).
  Let l2 (x : list R) : R := co x 0 * co x 1.
  Lemma family_r : forall x, box x -> 0 <= r0 x /\ 0 <= r1 x /\ 0 <= r2 x /\ r0 x ^ 2 + r1 x ^ 2 + r2 x ^ 2 = 1.
  Proof. intros x B. apply round_shares; apply Hang; apply (box_co 0 1 _ x _ B); lia. Qed.
  Lemma family_l : forall x, box x -> 0 <= l0 x /\ 0 <= l1 x /\ 0 <= l2 x /\ l0 x ^ 1 + l1 x ^ 1 + l2 x ^ 1 = 1.
  Proof. intros x B. apply linear_shares; apply (box_co 0 1 _ x _ B); lia. Qed.
  Lemma family_mr : forall x, box x -> box (move 2 k (1/2) x) /\ h (move 2 k (1/2) x) = 1 /\
    r0 (move 2 k (1/2) x) = r0 x /\ r1 (move 2 k (1/2) x) = r1 x /\ r2 (move 2 k (1/2) x) = r2 x.
  Proof.
    intros x B. destruct (dtlz_move k x B) as (M1 & M2 & M3 & M4). split; [exact M1|].
    split; [apply family_h1; assumption|]. unfold r0, r1, r2. rewrite M3, M4. auto.
  Qed.
  Lemma family_ml : forall x, box x -> box (move 2 k (1/2) x) /\ h (move 2 k (1/2) x) = 1 /\
    l0 (move 2 k (1/2) x) = l0 x /\ l1 (move 2 k (1/2) x) = l1 x /\ l2 (move 2 k (1/2) x) = l2 x.
  Proof.
    intros x B. destruct (dtlz_move k x B) as (M1 & M2 & M3 & M4). split; [exact M1|].
    split; [apply family_h1; assumption|]. unfold l0, l1, l2. rewrite M3, M4. auto.
  Qed.

  Variables p0 p1 p2 : R -> R.
  Hypotheses (I0 : incr p0) (I1 : incr p1) (I2 : incr p2).
  Lemma family_round : forall x, box x ->
    (pareto_optimal box (direct r0 r1 r2 h p0 p1 p2) x <-> rest_is (1/2) 2 x).
  Proof.
    intros x B. rewrite <- (family_h1 x B).
    apply (direct_optimal box 2 ltac:(lia) r0 r1 r2 h family_r family_h _ family_mr p0 p1 p2 I0 I1 I2 x B).
  Qed.
  Lemma family_line : forall x, box x ->
    (pareto_optimal box (direct l0 l1 l2 h p0 p1 p2) x <-> rest_is (1/2) 2 x).
  Proof.
    intros x B. rewrite <- (family_h1 x B).
    apply (direct_optimal box 1 ltac:(lia) l0 l1 l2 h family_l family_h _ family_ml p0 p1 p2 I0 I1 I2 x B).
  Qed.
  Variables c0 c1 c2 : R.
  Hypotheses (C0 : 0 < c0) (C1 : 0 < c1) (C2 : 0 < c2).
  Lemma family_inv_round : forall x, box x ->
    (pareto_optimal box (inverted r0 r1 r2 h c0 c1 c2) x <-> rest_is (1/2) 2 x).
  Proof.
    intros x B. rewrite <- (family_h1 x B).
    apply (inverted_optimal box 2 ltac:(lia) r0 r1 r2 h family_r family_h _ family_mr c0 c1 c2 C0 C1 C2 x B).
  Qed.
  Lemma family_inv_line : forall x, box x ->
    (pareto_optimal box (inverted l0 l1 l2 h c0 c1 c2) x <-> rest_is (1/2) 2 x).
  Proof.
    intros x B. rewrite <- (family_h1 x B).
    apply (inverted_optimal box 1 ltac:(lia) l0 l1 l2 h family_l family_h _ family_ml c0 c1 c2 C0 C1 C2 x B).
  Qed.
End Family.

Definition half (t : R) : R := 5/10 * t.
Lemma half_incr : incr half. Proof. apply incr_scale. lra. Qed.
Definition quarter_of (t : R) : R := t * PI * (5/10).
Definition powered_of (alpha : nat) (t : R) : R := t ^ alpha * PI * (5/10).
Lemma quarter_of_acute : forall t, 0 <= t <= 1 -> acute (quarter_of t). Proof. exact unit_acute. Qed.
Lemma powered_of_acute : forall alpha t, 0 <= t <= 1 -> acute (powered_of alpha t).
Proof. intros alpha t H. apply unit_acute. apply pow_unit. exact H. Qed.

Ltac three := unfold direct, inverted, half, rungs, downs, quarter_of, powered_of; cbn [seq fold_left map]; f_equal; [ring|f_equal; [ring|f_equal; ring]].

Theorem dtlz1_optimal : forall x, in_box 0 1 7 x ->
  (pareto_optimal (in_box 0 1 7) dtlz1_evaluate x <-> rest_is (1/2) 2 x).
Proof.
  intros x B. rewrite <- (family_line 5 (rastrigin_g 5) (rastrigin_min 5) 1 Rlt_0_1 half half half half_incr half_incr half_incr x B).
  apply optimal_ext. intros y. unfold dtlz1_evaluate. three.
Qed.
Theorem dtlz2_optimal : forall x, in_box 0 1 7 x ->
  (pareto_optimal (in_box 0 1 7) dtlz2_evaluate x <-> rest_is (1/2) 2 x).
Proof.
  intros x B. rewrite <- (family_round 5 (sphere_g 5) (sphere_min 5) 1 Rlt_0_1 quarter_of quarter_of_acute half half half half_incr half_incr half_incr x B).
  apply optimal_ext. intros y. unfold dtlz2_evaluate, quarter. three.
Qed.
Theorem dtlz3_optimal : forall x, in_box 0 1 7 x ->
  (pareto_optimal (in_box 0 1 7) dtlz3_evaluate x <-> rest_is (1/2) 2 x).
Proof.
  intros x B. rewrite <- (family_round 5 (rastrigin_g 5) (rastrigin_min 5) 1 Rlt_0_1 quarter_of quarter_of_acute half half half half_incr half_incr half_incr x B).
  apply optimal_ext. intros y. unfold dtlz3_evaluate, quarter. three.
Qed.
Theorem dtlz4_optimal : forall alpha x, in_box 0 1 7 x ->
  (pareto_optimal (in_box 0 1 7) (dtlz4_evaluate alpha) x <-> rest_is (1/2) 2 x).
Proof.
  intros alpha x B. rewrite <- (family_round 5 (sphere_g 5) (sphere_min 5) 1 Rlt_0_1 (powered_of alpha) (powered_of_acute alpha) half half half half_incr half_incr half_incr x B).
  apply optimal_ext. intros y. unfold dtlz4_evaluate, powered. three.
Qed.
Theorem maf1_optimal : forall x, in_box 0 1 12 x ->
  (pareto_optimal (in_box 0 1 12) maf1_evaluate x <-> rest_is (1/2) 2 x).
Proof.
  intros x B. rewrite <- (family_inv_line 10 (sphere_g 10) (sphere_min 10) 1 Rlt_0_1 1 1 1 Rlt_0_1 Rlt_0_1 Rlt_0_1 x B).
  apply optimal_ext. intros y. unfold maf1_evaluate. three.
Qed.
Theorem maf3_optimal : forall x, in_box 0 1 12 x ->
  (pareto_optimal (in_box 0 1 12) maf3_evaluate x <-> rest_is (1/2) 2 x).
Proof.
  intros x B. rewrite <- (family_round 10 (rastrigin_g 10) (rastrigin_min 10) 1 Rlt_0_1 quarter_of quarter_of_acute
    (fun t => 1 * t ^ 2) (fun t => 1 * t ^ 4) (fun t => 1 * t ^ 4) (incr_pow 1 2 Rlt_0_1 ltac:(lia))
    (incr_pow 1 4 Rlt_0_1 ltac:(lia)) (incr_pow 1 4 Rlt_0_1 ltac:(lia)) x B).
  apply optimal_ext. intros y. unfold maf3_evaluate, quarter. three.
Qed.
Theorem maf4_optimal : forall a x, 0 < a -> in_box 0 1 12 x ->
  (pareto_optimal (in_box 0 1 12) (maf4_evaluate a) x <-> rest_is (1/2) 2 x).
Proof.
  intros a x Ha B. rewrite <- (family_inv_round 10 (rastrigin_g 10) (rastrigin_min 10) 1 Rlt_0_1 quarter_of quarter_of_acute
    (a ^ 3) (a ^ 2) (a ^ 1) (pow_lt _ _ Ha) (pow_lt _ _ Ha) (pow_lt _ _ Ha) x B).
  apply optimal_ext. intros y. unfold maf4_evaluate, quarter. three.
Qed.
Theorem maf5_optimal : forall alpha a x, (0 < a)%nat -> in_box 0 1 12 x ->
  (pareto_optimal (in_box 0 1 12) (maf5_evaluate alpha a) x <-> rest_is (1/2) 2 x).
Proof.
  intros alpha a x Ha B. apply lt_0_INR in Ha.
  rewrite <- (family_round 10 (sphere_g 10) (sphere_min 10) 1 Rlt_0_1 (powered_of alpha) (powered_of_acute alpha)
    (fun t => INR a ^ 1 * t ^ 4) (fun t => INR a ^ 2 * t ^ 4) (fun t => INR a ^ 3 * t ^ 4) (incr_pow _ 4 (pow_lt _ _ Ha) ltac:(lia))
    (incr_pow _ 4 (pow_lt _ _ Ha) ltac:(lia)) (incr_pow _ 4 (pow_lt _ _ Ha) ltac:(lia)) x B).
  apply optimal_ext. intros y. unfold maf5_evaluate, powered. three.
Qed.
Theorem maf6_optimal : forall I x, (2 <= I)%nat -> in_box 0 1 12 x ->
  (pareto_optimal (in_box 0 1 12) (maf6_evaluate I) x <-> rest_is (1/2) 2 x).
Proof.
  intros I x HI B. rewrite <- (family_round 10 (sphere_g 10) (sphere_min 10) 100 ltac:(lra) quarter_of quarter_of_acute
    (fun t => 1 * t) (fun t => 1 * t) (fun t => 1 * t) (incr_scale 1 Rlt_0_1) (incr_scale 1 Rlt_0_1) (incr_scale 1 Rlt_0_1) x B).
  apply optimal_ext. intros y. unfold maf6_evaluate, rungs, maf6_theta.
  replace (0 <? I)%nat with true by (symmetry; apply Nat.ltb_lt; lia).
  replace (1 <? I)%nat with true by (symmetry; apply Nat.ltb_lt; lia). three.
Qed.

(** on the optimal set: the sum, or the sum of the squares *)
Lemma dtlz1_plane : forall x, in_box 0 1 7 x -> rest_is (1/2) 2 x -> sumR (dtlz1_evaluate x) = 1/2.
Proof.
  intros x B H. apply (rastrigin_min 5 x (proj1 B)) in H. unfold dtlz1_evaluate, rungs. rewrite H. unfold sumR. cbn [fold_right]. lra.
Qed.
Lemma round_quarter : forall a b, (5/10 * sin a) ^ 2 + (5/10 * cos a * sin b) ^ 2 + (5/10 * cos a * cos b) ^ 2 = 1/4.
Proof.
  intros a b. assert (P := sin2_cos2 a). assert (Q := sin2_cos2 b). unfold Rsqr in *.
  replace ((5/10 * sin a) ^ 2 + (5/10 * cos a * sin b) ^ 2 + (5/10 * cos a * cos b) ^ 2) with
    (1/4 * (sin a * sin a + cos a * cos a * (sin b * sin b + cos b * cos b))) by field. rewrite Q. lra.
Qed.
Definition squares (l : list R) : R := sumR (map (fun a => a ^ 2) l).
Lemma dtlz2_sphere : forall x, in_box 0 1 7 x -> rest_is (1/2) 2 x -> squares (dtlz2_evaluate x) = 1/4.
Proof.
  intros x B H. apply (sphere_min 5 x (proj1 B)) in H. unfold dtlz2_evaluate, rungs. rewrite H.
  unfold squares, sumR. cbn [map fold_right]. rewrite <- (round_quarter (quarter x 0) (quarter x 1)). ring.
Qed.
Lemma dtlz3_sphere : forall x, in_box 0 1 7 x -> rest_is (1/2) 2 x -> squares (dtlz3_evaluate x) = 1/4.
Proof.
  intros x B H. apply (rastrigin_min 5 x (proj1 B)) in H. unfold dtlz3_evaluate, rungs. rewrite H.
  unfold squares, sumR. cbn [map fold_right]. rewrite <- (round_quarter (quarter x 0) (quarter x 1)). ring.
Qed.
Lemma dtlz4_sphere : forall alpha x, in_box 0 1 7 x -> rest_is (1/2) 2 x -> squares (dtlz4_evaluate alpha x) = 1/4.
Proof.
  intros alpha x B H. apply (sphere_min 5 x (proj1 B)) in H. unfold dtlz4_evaluate, rungs. rewrite H.
  unfold squares, sumR. cbn [map fold_right]. rewrite <- (round_quarter (powered alpha x 0) (powered alpha x 1)). ring.
Qed.

(** ** one by one *)
Ltac agree3 := unfold one_by_one, rungs, downs; cbn [seq map fold_left Nat.eqb Nat.sub Nat.add]; repeat (apply f_equal2; [ring|]); reflexivity.
Lemma dtlz7_agree : forall x, one_by_one 3 dtlz7_objective x = dtlz7_evaluate x. Proof. reflexivity. Qed.
Lemma maf1_agree : forall x, one_by_one 3 maf1_objective x = maf1_evaluate x.
Proof. intros x. unfold maf1_objective, maf1_evaluate. agree3. Qed.
Lemma maf2_agree : forall x, one_by_one 3 maf2_objective x = maf2_evaluate x.
Proof. intros x. unfold maf2_objective, maf2_evaluate. agree3. Qed.
Lemma maf3_agree : forall x, one_by_one 3 maf3_objective x = maf3_evaluate x.
Proof. intros x. unfold maf3_objective, maf3_evaluate. agree3. Qed.
Lemma maf5_agree : forall alpha a x, one_by_one 3 (maf5_objective alpha a) x = maf5_evaluate alpha a x.
Proof. intros alpha a x. unfold maf5_objective, maf5_evaluate. agree3. Qed.
Lemma maf6_agree : forall I x, one_by_one 3 (maf6_objective I) x = maf6_evaluate I x.
Proof. intros I x. unfold maf6_objective, maf6_evaluate. agree3. Qed.
Lemma trunc_nat : forall n, trunc (INR n) = INR n.
Proof.
  intros n. unfold trunc. destruct (base_Int_part (INR n)) as [A B]. rewrite INR_IZR_INZ in *.
  f_equal. apply Z.le_antisymm; [apply le_IZR; lra|]. apply Z.lt_succ_r. apply lt_IZR. rewrite succ_IZR. lra.
Qed.
Lemma maf4_agree : forall n x, one_by_one 3 (maf4_objective (INR n)) x = maf4_evaluate (INR n) x.
Proof. intros n x. unfold maf4_objective, maf4_evaluate. rewrite trunc_nat. agree3. Qed.
(* what GetObjectives has of MAF4: Evaluate with the truncated parameter *)
Lemma maf4_relation : forall a x, one_by_one 3 (maf4_objective a) x = maf4_evaluate (trunc a) x.
Proof. intros a x. unfold maf4_objective, maf4_evaluate. agree3. Qed.

Lemma dtlz1_relation : forall x, one_by_one 3 dtlz1_objective x =
  match dtlz1_evaluate x with [a; b; c] => [a; b; c * co x 2] | l => l end.
Proof. intros x. unfold dtlz1_objective, dtlz1_evaluate. agree3. Qed.
Lemma dtlz2_relation : forall x, one_by_one 3 dtlz2_objective x =
  match dtlz2_evaluate x with [a; b; c] => [2 * a; 2 * b; 2 * c * cos (quarter x 2)] | l => l end.
Proof. intros x. unfold dtlz2_objective, dtlz2_evaluate. unfold one_by_one, rungs, downs; cbn [seq map fold_left Nat.eqb]; f_equal; [field|f_equal; [field|f_equal; field]]. Qed.
Lemma dtlz3_relation : forall x, one_by_one 3 dtlz3_objective x =
  match dtlz3_evaluate x with [a; b; c] => [2 * a; 2 * b; 2 * c * cos (quarter x 2)] | l => l end.
Proof. intros x. unfold dtlz3_objective, dtlz3_evaluate. unfold one_by_one, rungs, downs; cbn [seq map fold_left Nat.eqb]; f_equal; [field|f_equal; [field|f_equal; field]]. Qed.
Lemma dtlz4_relation : forall alpha x, one_by_one 3 (dtlz4_objective alpha) x =
  match dtlz4_evaluate alpha x with [a; b; c] => [2 * a; 2 * b; 2 * c * cos (powered alpha x 2)] | l => l end.
Proof. intros alpha x. unfold dtlz4_objective, dtlz4_evaluate. unfold one_by_one, rungs, downs; cbn [seq map fold_left Nat.eqb]; f_equal; [field|f_equal; [field|f_equal; field]]. Qed.
Lemma dtlz56_relation : forall G x, one_by_one 3 (dtlz56_objective G) x =
  match dtlz56_evaluate G x with [a; b; c] => [2 * a; 2 * b; 2 * c * cos (theta G x 2 * PI * (5/10))] | l => l end.
Proof. intros G x. unfold dtlz56_objective, dtlz56_evaluate. unfold one_by_one, rungs, downs; cbn [seq map fold_left Nat.eqb].
  f_equal; [lra|f_equal; [lra|f_equal; lra]]. Qed.
