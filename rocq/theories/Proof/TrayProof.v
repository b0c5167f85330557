(** Cross-in-tray, Hoelder table and Schaffer N.4. *)
From Coq Require Import Reals Lra Psatz.
From Verif.Model Require Import Lovasz.
From Verif.Spec Require Import LovaszSpec.
Local Open Scope R_scope.

Definition tray_scale (x1 x2 : R) : R := exp (Rabs (100 - sqrt (x1 ^ 2 + x2 ^ 2) / PI)).
Lemma tray_scale_pos x1 x2 : 1 <= tray_scale x1 x2.
Proof. unfold tray_scale. rewrite <- exp_0. destruct (Rle_lt_or_eq_dec 0 (Rabs (100 - sqrt (x1 ^ 2 + x2 ^ 2) / PI)) (Rabs_pos _)) as [H|H]; [left; now apply exp_increasing|rewrite <- H; lra]. Qed.
Lemma pow_pos_eq b e : 0 < b -> pow_pos b e = Rpower b e.
Proof. intros H. unfold pow_pos. destruct (Req_EM_T b 0); [lra|reflexivity]. Qed.
Lemma pow_pos_nonneg b e : 0 <= pow_pos b e.
Proof. unfold pow_pos. destruct (Req_EM_T b 0); [lra|]. unfold Rpower. left. apply exp_pos. Qed.

Theorem cross_same x1 x2 : 0 <= sin x1 * sin x2 -> cross_in_tray x1 x2 = cross_doc x1 x2.
Proof.
  intros H. unfold cross_in_tray, cross_doc. fold (tray_scale x1 x2). pose proof (tray_scale_pos x1 x2).
  assert (0 <= sin x1 * sin x2 * tray_scale x1 x2) by (apply Rmult_le_pos; lra).
  rewrite (Rabs_pos_eq (_ * _ * _)) by assumption. rewrite (Rabs_pos_eq (_ + 1)) by lra. now rewrite pow_pos_eq by lra.
Qed.
Lemma Rpower_lt a b e : 0 < e -> 0 < a -> a < b -> Rpower a e < Rpower b e.
Proof. intros E A L. unfold Rpower. apply exp_increasing. apply Rmult_lt_compat_l; [exact E|]. now apply ln_increasing. Qed.
(** with opposite signs the value is too large, unless the product is zero *)
Theorem cross_different x1 x2 : sin x1 * sin x2 < 0 -> cross_doc x1 x2 < cross_in_tray x1 x2.
Proof.
  intros H. unfold cross_in_tray, cross_doc. fold (tray_scale x1 x2). pose proof (tray_scale_pos x1 x2).
  set (p := sin x1 * sin x2 * tray_scale x1 x2). assert (P : p < 0) by (unfold p; nra).
  rewrite (Rabs_left p) by exact P.
  assert (L : Rabs (p + 1) < - p + 1) by (unfold Rabs; destruct (Rcase_abs (p + 1)); lra).
  assert (pow_pos (Rabs (p + 1)) (/ 10) < Rpower (- p + 1) (/ 10)); [|lra].
  unfold pow_pos. destruct (Req_EM_T (Rabs (p + 1)) 0); [unfold Rpower; apply exp_pos|].
  apply Rpower_lt; [lra| |exact L]. pose proof (Rabs_pos (p + 1)). lra.
Qed.
Theorem cross_symmetric x1 x2 : cross_in_tray x2 x1 = cross_in_tray x1 x2 /\ cross_in_tray (- x1) (- x2) = cross_in_tray x1 x2.
Proof.
  unfold cross_in_tray. split.
  - rewrite (Rplus_comm (x2 ^ 2)), (Rmult_comm (sin x2)). reflexivity.
  - rewrite !sin_neg. replace ((- x1) ^ 2) with (x1 ^ 2) by ring. replace ((- x2) ^ 2) with (x2 ^ 2) by ring.
    now replace (- sin x1 * - sin x2) with (sin x1 * sin x2) by ring.
Qed.
Theorem cross_sign_refuted : exists x1 x2, cross_in_tray x1 (- x2) <> cross_in_tray x1 x2 /\ cross_doc x1 (- x2) = cross_doc x1 x2.
Proof.
  exists (PI / 2), (PI / 2). assert (D : cross_doc (PI / 2) (- (PI / 2)) = cross_doc (PI / 2) (PI / 2)).
  { unfold cross_doc. rewrite sin_neg. replace ((- (PI / 2)) ^ 2) with ((PI / 2) ^ 2) by ring. fold (tray_scale (PI / 2) (PI / 2)).
    replace (sin (PI / 2) * - sin (PI / 2) * tray_scale (PI / 2) (PI / 2)) with (- (sin (PI / 2) * sin (PI / 2) * tray_scale (PI / 2) (PI / 2))) by ring.
    now rewrite Rabs_Ropp. }
  split; [|exact D]. intros E.
  pose proof (cross_same (PI / 2) (PI / 2)) as A. pose proof (cross_different (PI / 2) (- (PI / 2))) as B.
  rewrite sin_neg, sin_PI2 in B. rewrite sin_PI2 in A. specialize (A ltac:(lra)). specialize (B ltac:(lra)). lra.
Qed.

Theorem cross_range x1 x2 : cross_in_tray x1 x2 <= 0.
Proof. unfold cross_in_tray. match goal with |- context [pow_pos ?b ?e] => pose proof (pow_pos_nonneg b e) end. lra. Qed.
(** the documented function never rises above -1/10000 *)
Theorem cross_doc_range x1 x2 : cross_doc x1 x2 <= - (1 / 10000).
Proof.
  unfold cross_doc. match goal with |- context [Rpower (Rabs ?p + 1) ?e] => assert (1 <= Rpower (Rabs p + 1) e) end; [|lra].
  match goal with |- _ <= Rpower ?b _ => pose (q := b); fold q; assert (Q : 1 <= q) by (unfold q; match goal with |- context [Rabs ?p + 1] => pose proof (Rabs_pos p) end; lra) end.
  rewrite <- (Rpower_O q) by lra. apply Rle_Rpower; lra.
Qed.

Definition holder_bound (x1 x2 : R) : R := exp (Rabs (1 - sqrt (x1 * x1 + x2 * x2) / PI)).
Theorem holder_facts x1 x2 :
  - exp (Rabs (1 - sqrt (x1 * x1 + x2 * x2) / PI)) <= holder_table x1 x2 <= 0 /\
  holder_table (- x1) x2 = holder_table x1 x2 /\ holder_table x1 (- x2) = holder_table x1 x2 /\
  (holder_table x1 x2 = 0 <-> sin x1 = 0 \/ cos x2 = 0).
Proof.
  unfold holder_table. fold (holder_bound x1 x2). assert (P : 0 < holder_bound x1 x2) by apply exp_pos. split; [|split; [|split]].
  - rewrite !Rabs_mult. rewrite (Rabs_pos_eq (holder_bound x1 x2)) by lra.
    pose proof (Rabs_pos (sin x1)). pose proof (Rabs_pos (cos x2)).
    assert (Rabs (sin x1) <= 1) by (apply Rabs_le, SIN_bound). assert (Rabs (cos x2) <= 1) by (apply Rabs_le, COS_bound).
    assert (0 <= Rabs (sin x1) * Rabs (cos x2) <= 1) by nra. nra.
  - rewrite sin_neg. replace (- x1 * - x1) with (x1 * x1) by ring. fold (holder_bound x1 x2).
    replace (- sin x1 * cos x2 * holder_bound x1 x2) with (- (sin x1 * cos x2 * holder_bound x1 x2)) by ring. now rewrite Rabs_Ropp.
  - rewrite cos_neg. now replace (- x2 * - x2) with (x2 * x2) by ring.
  - split.
    + intros E. assert (F : Rabs (sin x1 * cos x2 * holder_bound x1 x2) = 0) by lra.
      destruct (Req_dec (sin x1 * cos x2 * holder_bound x1 x2) 0) as [G|G]; [|apply Rabs_no_R0 in G; contradiction].
      apply Rmult_integral in G as [G|G]; [now apply Rmult_integral|lra].
    + intros [E|E]; rewrite E, ?Rmult_0_l, ?Rmult_0_r, ?Rmult_0_l, Rabs_R0; lra.
Qed.

Lemma cos_sin_square y : cos 1 ^ 2 <= cos (sin y) ^ 2 <= 1.
Proof.
  pose proof (SIN_bound y) as [A B]. pose proof PI_RGT_0. pose proof PI2_1 as P1. pose proof PI2_3_2 as P2.
  assert (Z : 0 < cos 1) by (apply cos_gt_0; lra).
  assert (C : cos 1 <= cos (sin y)).
  { destruct (Rle_dec 0 (sin y)) as [L|L].
    - apply cos_decr_1; lra.
    - rewrite <- (cos_neg (sin y)). apply cos_decr_1; lra. }
  pose proof (COS_bound (sin y)). nra.
Qed.
Theorem schaffer_n4_facts x1 x2 :
  cos 1 ^ 2 <= schaffer_n4 x1 x2 <= 1 /\ schaffer_n4 x2 x1 = schaffer_n4 x1 x2 /\
  schaffer_n4 (- x1) x2 = schaffer_n4 x1 x2 /\ schaffer_n4 x1 (- x2) = schaffer_n4 x1 x2.
Proof.
  unfold schaffer_n4. split; [|split; [|split]].
  - set (y := Rabs (x1 ^ 2 - x2 ^ 2)). pose proof (cos_sin_square y) as [A B]. set (v := cos (sin y) ^ 2) in *.
    set (d := (1 + / 1000 * (x1 ^ 2 + x2 ^ 2)) ^ 2). assert (D : 1 <= d) by (unfold d; pose proof (pow2_ge_0 x1); pose proof (pow2_ge_0 x2); nra).
    assert (I : 0 < / d <= 1) by (split; [apply Rinv_0_lt_compat; lra|rewrite <- Rinv_1; apply Rinv_le_contravar; lra]).
    assert (Q : cos 1 ^ 2 <= / 2).
    { pose proof PI_RGT_0 as P0. pose proof PI2_3_2 as P2. assert (Z : 0 < cos 1) by (apply cos_gt_0; lra).
      assert (cos 1 <= cos (PI / 4)) by (apply cos_decr_1; pose proof PI_RGT_0; pose proof PI_4; lra).
      assert (cos (PI / 4) ^ 2 = / 2).
      { rewrite cos_PI4. assert (0 < sqrt 2) by (apply sqrt_lt_R0; lra).
        replace ((1 / sqrt 2) ^ 2) with (/ (sqrt 2 * sqrt 2)) by (field; lra). rewrite sqrt_sqrt; lra. }
      nra. }
    unfold Rdiv. split; nra.
  - rewrite (Rabs_minus_sym (x2 ^ 2)), (Rplus_comm (x2 ^ 2)). reflexivity.
  - now replace ((- x1) ^ 2) with (x1 ^ 2) by ring.
  - now replace ((- x2) ^ 2) with (x2 ^ 2) by ring.
Qed.
