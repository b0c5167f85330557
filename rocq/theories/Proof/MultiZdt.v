(** The ZDT problems. *)
From Coq Require Import List Arith Bool Reals Lia Lra Psatz.
From Verif.Model Require Import Problems MultiProblems.
From Verif.Spec Require Import MultiSpec.
From Verif.Proof Require Import MultiProof.
Import ListNotations.
Local Open Scope R_scope.

(** ** one by one *)
Lemma zdt1_agree : forall x, one_by_one 2 zdt1_objective x = zdt1_evaluate x. Proof. reflexivity. Qed.
Lemma zdt2_agree : forall x, one_by_one 2 zdt2_objective x = zdt2_evaluate x. Proof. reflexivity. Qed.
Lemma zdt3_agree : forall x, one_by_one 2 zdt3_objective x = zdt3_evaluate x. Proof. reflexivity. Qed.
Lemma zdt4_agree : forall x, one_by_one 2 zdt4_objective x = zdt4_evaluate x. Proof. reflexivity. Qed.
Lemma zdt6_agree : forall x, one_by_one 2 zdt6_objective x = zdt6_evaluate x. Proof. reflexivity. Qed.

Lemma div_1 : forall a, a / 1 = a. Proof. intros. field. Qed.

(** ** the curves *)
Definition unit (f : R) : Prop := 0 <= f <= 1.

Lemma root_div : forall f a, 0 <= f -> 1 <= a -> a * sqrt (f / a) = sqrt f * sqrt a.
Proof.
  intros f a Hf Ha. unfold Rdiv. rewrite sqrt_mult_alt by exact Hf. rewrite sqrt_inv.
  assert (S := sqrt_def a ltac:(lra)). assert (0 < sqrt a) by (apply sqrt_lt_R0; lra).
  rewrite <- S at 1. field. lra.
Qed.

Lemma root_up : forall f a b, unit f -> 1 <= a -> a < b -> a * (1 - sqrt (f / a)) < b * (1 - sqrt (f / b)).
Proof.
  intros f a b [F0 F1] Ha L.
  replace (a * (1 - sqrt (f / a))) with (a - a * sqrt (f / a)) by ring.
  replace (b * (1 - sqrt (f / b))) with (b - b * sqrt (f / b)) by ring.
  rewrite !root_div by lra.
  assert (A := sqrt_def a ltac:(lra)). assert (B := sqrt_def b ltac:(lra)).
  assert (sqrt f <= 1) by (rewrite <- sqrt_1; apply sqrt_le_1_alt; exact F1).
  assert (0 <= sqrt f) by apply sqrt_pos.
  assert (1 <= sqrt a) by (rewrite <- sqrt_1; apply sqrt_le_1_alt; exact Ha).
  assert (sqrt a < sqrt b) by (apply sqrt_lt_1_alt; lra).
  nra.
Qed.
Lemma root_down : forall a b, unit a -> unit b -> a < b -> 1 * (1 - sqrt (b / 1)) < 1 * (1 - sqrt (a / 1)).
Proof.
  intros a b [A0 A1] [B0 B1] L. rewrite !div_1. assert (sqrt a < sqrt b) by (apply sqrt_lt_1_alt; lra). lra.
Qed.

Lemma square_up : forall f a b, unit f -> 1 <= a -> a < b -> a * (1 - (f / a) ^ 2) < b * (1 - (f / b) ^ 2).
Proof.
  intros f a b [F0 F1] Ha L.
  replace (a * (1 - (f / a) ^ 2)) with (a - f ^ 2 * / a) by (field; lra).
  replace (b * (1 - (f / b) ^ 2)) with (b - f ^ 2 * / b) by (field; lra).
  assert (/ b < / a) by (apply Rinv_lt_contravar; nra). assert (0 <= f ^ 2) by nra. nra.
Qed.
Lemma square_down : forall a b, unit a -> unit b -> a < b -> 1 * (1 - (b / 1) ^ 2) < 1 * (1 - (a / 1) ^ 2).
Proof. intros a b [A0 A1] [B0 B1] L. rewrite !div_1. nra. Qed.

Lemma wave_up : forall f a b, unit f -> 1 <= a -> a < b ->
  a * (1 - sqrt (f / a) - f / a * sin (10 * PI * f)) < b * (1 - sqrt (f / b) - f / b * sin (10 * PI * f)).
Proof.
  intros f a b F Ha L. assert (Q := root_up f a b F Ha L).
  replace (a * (1 - sqrt (f / a) - f / a * sin (10 * PI * f))) with (a * (1 - sqrt (f / a)) - f * sin (10 * PI * f)) by (field; lra).
  replace (b * (1 - sqrt (f / b) - f / b * sin (10 * PI * f))) with (b * (1 - sqrt (f / b)) - f * sin (10 * PI * f)) by (field; lra).
  lra.
Qed.

(** ** the distance terms *)
Lemma zdt1_g_min : forall x, in_box 0 1 30 x -> 1 <= zdt1_g x /\ (zdt1_g x = 1 <-> rest_is 0 1 x).
Proof.
  intros x B. unfold zdt1_g.
  destruct (accu_min (fun a => a) 0 0 1 29 x (fun a => 0 <= a)) as [G E].
  - exact (proj1 B).
  - intros i Hi. apply in_seq in Hi. apply (box_co 0 1 30 x i B). lia.
  - intros a Ha. exact Ha.
  - intros a Ha. tauto.
  - rewrite Rmult_0_l in *. split; [lra|]. rewrite <- E. split; intros; lra.
Qed.

Lemma zdt6_g_min : forall x, in_box 0 1 10 x -> 1 <= zdt6_g x /\ (zdt6_g x = 1 <-> rest_is 0 1 x).
Proof.
  intros x B. unfold zdt6_g.
  destruct (accu_min (fun a => a) 0 0 1 9 x (fun a => 0 <= a)) as [G E].
  - exact (proj1 B).
  - intros i Hi. apply in_seq in Hi. apply (box_co 0 1 10 x i B). lia.
  - intros a Ha. exact Ha.
  - intros a Ha. tauto.
  - rewrite Rmult_0_l in *. set (S := accu (fun a => a) 1 9 x) in *.
    assert (Q := sqrt_pos (sqrt (S / 9))). split; [lra|]. rewrite <- E. split.
    + intros H. assert (Z : sqrt (sqrt (S / 9)) = 0) by lra. apply sqrt_eq_0 in Z; [|apply sqrt_pos].
      apply sqrt_eq_0 in Z; lra.
    + intros ->. replace (0 / 9) with 0 by lra. rewrite !sqrt_0. lra.
Qed.

Lemma zdt4_g_min : forall x, length x = 10%nat -> 1 <= zdt4_g x /\ (zdt4_g x = 1 <-> rest_is 0 1 x).
Proof.
  intros x L. unfold zdt4_g.
  destruct (accu_min (fun a => a ^ 2 - 10 * cos (4 * PI * a)) (-10) 0 1 9 x (fun _ => True)) as [G E].
  - exact L.
  - intros; exact I.
  - intros a _. assert (Q := COS_bound (4 * PI * a)). assert (0 <= a ^ 2) by nra. lra.
  - intros a _. assert (Q := COS_bound (4 * PI * a)). split.
    + intros H. assert (a ^ 2 <= 0) by lra. nra.
    + intros ->. rewrite Rmult_0_r, cos_0. lra.
  - replace (-10 * INR 9) with (-90) in * by (cbn; lra). split; [lra|]. rewrite <- E. split; intros; lra.
Qed.

Lemma co0 : forall x, co (move 1 29 0 x) 0 = co x 0 \/ length x = 0%nat.
Proof. intros [|a x]; [right|left]; reflexivity. Qed.

Lemma zdt_move : forall n x, in_box 0 1 (1 + n) x ->
  in_box 0 1 (1 + n) (move 1 n 0 x) /\ rest_is 0 1 (move 1 n 0 x) /\ co (move 1 n 0 x) 0 = co x 0.
Proof.
  intros n x B. destruct B as [L F]. repeat split.
  - apply move_length. lia.
  - apply move_box; [split; assumption|lra].
  - apply move_rest. lia.
  - apply move_co; lia.
Qed.

Lemma zdt4_move : forall x, zdt4_box x ->
  zdt4_box (move 1 9 0 x) /\ rest_is 0 1 (move 1 9 0 x) /\ co (move 1 9 0 x) 0 = co x 0.
Proof.
  intros x (a & t & -> & Ha & B). repeat split.
  - exists a, (repeat 0 9). split; [reflexivity|]. split; [exact Ha|]. split; [reflexivity|].
    apply Forall_forall. intros b Hb. apply repeat_spec in Hb. lra.
  - apply move_rest. cbn. lia.
Qed.
Lemma zdt4_length : forall x, zdt4_box x -> length x = 10%nat.
Proof. intros x (a & t & -> & _ & L & _). cbn. rewrite L. reflexivity. Qed.

Lemma sin6 : forall a, 0 <= sin a ^ 6 <= 1.
Proof.
  intros a. replace (sin a ^ 6) with ((sin a ^ 2) ^ 3) by ring.
  assert (0 <= sin a ^ 2 <= 1). { assert (Q := SIN_bound a). nra. }
  split; [apply pow_le; lra|]. rewrite <- (pow1 3). apply pow_incr. lra.
Qed.
Lemma zdt6_f1_unit : forall x, 0 <= co x 0 -> unit (zdt6_f1 x).
Proof.
  intros x H. unfold zdt6_f1, unit. assert (S := sin6 (6 * PI * co x 0)).
  assert (E : exp (-4 * co x 0) <= 1).
  { rewrite <- exp_0. destruct H as [H|H]; [left; apply exp_increasing; lra|right; rewrite <- H; f_equal; lra]. }
  assert (P := exp_pos (-4 * co x 0)). nra.
Qed.

(** ** the optimal points *)
Theorem zdt1_optimal : forall x, in_box 0 1 30 x ->
  (pareto_optimal (in_box 0 1 30) zdt1_evaluate x <-> rest_is 0 1 x).
Proof.
  intros x B. rewrite <- (proj2 (zdt1_g_min x B)).
  apply (curve_optimal (in_box 0 1 30) (fun x => co x 0) zdt1_g (fun f g => g * (1 - sqrt (f / g))) unit) with (moved := move 1 29 0).
  - intros y By. apply (box_co 0 1 30 y 0 By). lia.
  - intros y By. apply (zdt1_g_min y By).
  - exact root_up.
  - intros y By. destruct (zdt_move 29 y By) as (M1 & M2 & M3). split; [exact M1|]. split; [apply (zdt1_g_min _ M1); exact M2|exact M3].
  - exact root_down.
  - exact B.
Qed.

Theorem zdt2_optimal : forall x, in_box 0 1 30 x ->
  (pareto_optimal (in_box 0 1 30) zdt2_evaluate x <-> rest_is 0 1 x).
Proof.
  intros x B. rewrite <- (proj2 (zdt1_g_min x B)).
  apply (curve_optimal (in_box 0 1 30) (fun x => co x 0) zdt1_g (fun f g => g * (1 - (f / g) ^ 2)) unit) with (moved := move 1 29 0).
  - intros y By. apply (box_co 0 1 30 y 0 By). lia.
  - intros y By. apply (zdt1_g_min y By).
  - exact square_up.
  - intros y By. destruct (zdt_move 29 y By) as (M1 & M2 & M3). split; [exact M1|]. split; [apply (zdt1_g_min _ M1); exact M2|exact M3].
  - exact square_down.
  - exact B.
Qed.

Theorem zdt3_needs : forall x, pareto_optimal (in_box 0 1 30) zdt3_evaluate x -> rest_is 0 1 x.
Proof.
  intros x P. assert (B := proj1 P). apply (zdt1_g_min x B).
  apply (curve_needs (in_box 0 1 30) (fun x => co x 0) zdt1_g
           (fun f g => g * (1 - sqrt (f / g) - f / g * sin (10 * PI * f))) unit) with (moved := move 1 29 0).
  - intros y By. apply (box_co 0 1 30 y 0 By). lia.
  - intros y By. apply (zdt1_g_min y By).
  - exact wave_up.
  - intros y By. destruct (zdt_move 29 y By) as (M1 & M2 & M3). split; [exact M1|]. split; [apply (zdt1_g_min _ M1); exact M2|exact M3].
  - exact B.
  - exact P.
Qed.

Theorem zdt4_optimal : forall x, zdt4_box x -> (pareto_optimal zdt4_box zdt4_evaluate x <-> rest_is 0 1 x).
Proof.
  intros x B. rewrite <- (proj2 (zdt4_g_min x (zdt4_length x B))).
  apply (curve_optimal zdt4_box (fun x => co x 0) zdt4_g (fun f g => g * (1 - sqrt (f / g))) unit) with (moved := move 1 9 0).
  - intros y (a & t & -> & Ha & _). exact Ha.
  - intros y By. apply (zdt4_g_min y (zdt4_length y By)).
  - exact root_up.
  - intros y By. destruct (zdt4_move y By) as (M1 & M2 & M3). split; [exact M1|]. split; [apply (zdt4_g_min _ (zdt4_length _ M1)); exact M2|exact M3].
  - exact root_down.
  - exact B.
Qed.

Lemma zdt6_moved : forall y, in_box 0 1 10 y ->
  in_box 0 1 10 (move 1 9 0 y) /\ zdt6_g (move 1 9 0 y) = 1 /\ zdt6_f1 (move 1 9 0 y) = zdt6_f1 y.
Proof.
  intros y By. destruct (zdt_move 9 y By) as (M1 & M2 & M3). split; [exact M1|]. split; [apply (zdt6_g_min _ M1); exact M2|].
  unfold zdt6_f1. rewrite M3. reflexivity.
Qed.
Lemma zdt6_dom : forall y, in_box 0 1 10 y -> unit (zdt6_f1 y).
Proof. intros y By. apply zdt6_f1_unit. apply (box_co 0 1 10 y 0 By). lia. Qed.

Theorem zdt6_optimal : forall x, in_box 0 1 10 x ->
  (pareto_optimal (in_box 0 1 10) zdt6_evaluate x <-> rest_is 0 1 x).
Proof.
  intros x B. rewrite <- (proj2 (zdt6_g_min x B)).
  apply (curve_optimal (in_box 0 1 10) zdt6_f1 zdt6_g (fun f g => g * (1 - (f / g) ^ 2)) unit) with (moved := move 1 9 0).
  - exact zdt6_dom.
  - intros y By. apply (zdt6_g_min y By).
  - exact square_up.
  - exact zdt6_moved.
  - exact square_down.
  - exact B.
Qed.

(** ** the reference fronts *)
Lemma linspace_between : forall a b n i, a <= b -> (i < n)%nat -> a <= linspace a b n i <= b.
Proof.
  intros a b n i H Hi. unfold linspace. destruct (Nat.eqb_spec n 1); [lra|]. destruct (Nat.eqb_spec i (n - 1)); [lra|].
  assert (P : 0 < INR (n - 1)) by (apply lt_0_INR; lia).
  assert (0 <= INR i <= INR (n - 1)) by (split; [apply pos_INR|apply le_INR; lia]).
  assert (D : 0 <= (b - a) / INR (n - 1)) by (apply Rmult_le_pos; [lra|left; apply Rinv_0_lt_compat; exact P]).
  assert (E : INR (n - 1) * ((b - a) / INR (n - 1)) = b - a) by (field; lra). nra.
Qed.

Definition axis (n : nat) (v : R) : list R := v :: repeat 0 n.
Lemma axis_box : forall n v, 0 <= v <= 1 -> in_box 0 1 (1 + n) (axis n v).
Proof.
  intros n v H. split; [cbn; rewrite repeat_length; reflexivity|]. constructor; [exact H|].
  apply Forall_forall. intros b Hb. apply repeat_spec in Hb. lra.
Qed.
Lemma axis_rest : forall n v, rest_is 0 1 (axis n v).
Proof. intros n v. unfold rest_is. cbn. apply Forall_forall. intros b Hb. exact (repeat_spec n 0 b Hb). Qed.
Lemma axis_zdt4 : forall v, 0 <= v <= 1 -> zdt4_box (axis 9 v).
Proof.
  intros v H. exists v, (repeat 0 9). split; [reflexivity|]. split; [exact H|]. split; [reflexivity|].
  apply Forall_forall. intros b Hb. apply repeat_spec in Hb. lra.
Qed.

Theorem zdt1_front_optimal : forall n p, In p (zdt1_front n) ->
  exists x, pareto_optimal (in_box 0 1 30) zdt1_evaluate x /\ zdt1_evaluate x = p.
Proof.
  intros n p H. unfold zdt1_front in H. apply in_map_iff in H. destruct H as (i & <- & Hi). apply in_seq in Hi.
  set (v := linspace 0 1 n i). assert (V : 0 <= v <= 1) by (apply linspace_between; [lra|lia]).
  exists (axis 29 v). assert (B := axis_box 29 v V). split; [apply (zdt1_optimal _ B), axis_rest|].
  unfold zdt1_evaluate. rewrite (proj2 (proj2 (zdt1_g_min _ B)) (axis_rest 29 v)). cbn [co axis nth].
  rewrite div_1, Rmult_1_l. reflexivity.
Qed.
Theorem zdt2_front_optimal : forall n p, In p (zdt2_front n) ->
  exists x, pareto_optimal (in_box 0 1 30) zdt2_evaluate x /\ zdt2_evaluate x = p.
Proof.
  intros n p H. unfold zdt2_front in H. apply in_map_iff in H. destruct H as (i & <- & Hi). apply in_seq in Hi.
  set (v := linspace 0 1 n i). assert (V : 0 <= v <= 1) by (apply linspace_between; [lra|lia]).
  exists (axis 29 v). assert (B := axis_box 29 v V). split; [apply (zdt2_optimal _ B), axis_rest|].
  unfold zdt2_evaluate. rewrite (proj2 (proj2 (zdt1_g_min _ B)) (axis_rest 29 v)). cbn [co axis nth].
  rewrite div_1, Rmult_1_l. reflexivity.
Qed.
Theorem zdt4_front_optimal : forall n p, In p (zdt4_front n) ->
  exists x, pareto_optimal zdt4_box zdt4_evaluate x /\ zdt4_evaluate x = p.
Proof.
  intros n p H. unfold zdt4_front, zdt1_front in H. apply in_map_iff in H. destruct H as (i & <- & Hi). apply in_seq in Hi.
  set (v := linspace 0 1 n i). assert (V : 0 <= v <= 1) by (apply linspace_between; [lra|lia]).
  exists (axis 9 v). assert (B := axis_zdt4 v V). split; [apply (zdt4_optimal _ B), axis_rest|].
  unfold zdt4_evaluate. rewrite (proj2 (proj2 (zdt4_g_min _ (zdt4_length _ B))) (axis_rest 9 v)). cbn [co axis nth].
  rewrite div_1, Rmult_1_l. reflexivity.
Qed.
Theorem zdt3_front_attained : forall n p, In p (zdt3_front n) ->
  exists x, in_box 0 1 30 x /\ rest_is 0 1 x /\ zdt3_evaluate x = p.
Proof.
  intros n p H. unfold zdt3_front in H. apply in_flat_map in H. destruct H as (ab & Hab & H).
  apply in_map_iff in H. destruct H as (i & <- & Hi). apply in_seq in Hi.
  set (v := linspace (fst ab) (snd ab) (n / 5) i).
  assert (V : 0 <= v <= 1).
  { assert (Q : 0 <= fst ab /\ fst ab <= snd ab /\ snd ab <= 1).
    { unfold zdt3_regions in Hab. cbn [In] in Hab. decompose [or] Hab; subst; cbn [fst snd]; lra. }
    assert (B := linspace_between (fst ab) (snd ab) (n / 5) i (proj1 (proj2 Q)) ltac:(lia)). fold v in B. lra. }
  exists (axis 29 v). assert (B := axis_box 29 v V). split; [exact B|]. split; [apply axis_rest|].
  unfold zdt3_evaluate. rewrite (proj2 (proj2 (zdt1_g_min _ B)) (axis_rest 29 v)). cbn [co axis nth].
  rewrite !div_1, Rmult_1_l. reflexivity.
Qed.
Theorem zdt6_front_undominated : forall n p y, In p (zdt6_front n) -> in_box 0 1 10 y -> ~ dominates (zdt6_evaluate y) p.
Proof.
  intros n p y H By. unfold zdt6_front in H. apply in_map_iff in H. destruct H as (i & <- & Hi). apply in_seq in Hi.
  set (v := linspace (2807753191 / 10 ^ 10) 1 n i).
  assert (V : unit v).
  { assert (B := linspace_between (2807753191 / 10 ^ 10) 1 n i ltac:(lra) ltac:(lia)). fold v in B. unfold unit. lra. }
  cbv zeta. replace (1 - v ^ 2) with (1 * (1 - (v / 1) ^ 2)) by (rewrite div_1; ring).
  apply (curve_front (in_box 0 1 10) zdt6_f1 zdt6_g (fun f g => g * (1 - (f / g) ^ 2)) unit); try assumption.
  - exact zdt6_dom.
  - intros z Bz. apply (zdt6_g_min z Bz).
  - exact square_up.
  - exact square_down.
Qed.
Lemma zdt_front_length : forall n, length (zdt1_front n) = n /\ length (zdt2_front n) = n /\ length (zdt4_front n) = n /\
  length (zdt6_front n) = n /\ length (zdt3_front n) = (5 * (n / 5))%nat.
Proof.
  intros n. unfold zdt4_front, zdt1_front, zdt2_front, zdt6_front. rewrite !map_length, !seq_length. repeat split.
  unfold zdt3_front, zdt3_regions. cbn [flat_map]. rewrite !app_length, !map_length, !seq_length. cbn [length]. lia.
Qed.
(* with two points or more both ends are there *)
Lemma zdt_front_ends : forall n, (2 <= n)%nat -> In [0; 1 - sqrt 0] (zdt1_front n) /\ In [1; 1 - sqrt 1] (zdt1_front n).
Proof.
  intros n H. unfold zdt1_front. split; apply in_map_iff.
  - exists 0%nat. split; [|apply in_seq; lia]. unfold linspace. cbn [INR].
    destruct (Nat.eqb_spec n 1); [lia|]. destruct (Nat.eqb_spec 0 (n - 1)); [lia|]. rewrite Rmult_0_l, Rplus_0_r. reflexivity.
  - exists (n - 1)%nat. split; [|apply in_seq; lia]. unfold linspace. destruct (Nat.eqb_spec n 1); [lia|]. rewrite Nat.eqb_refl. reflexivity.
Qed.
