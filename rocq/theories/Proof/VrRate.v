(** Convergence of SVRG and SARAH, whatever the order of the batches. *)
From Coq Require Import List Arith Bool Reals Lra Lia Permutation.
From Verif.Base Require Import Num Vec Instances.
From Verif.Model Require Import Common VarRed SVRG Sarah.
From Verif.Spec Require Import SgdSpec Gradient ConvergeSpec VarRedSpec SarahSpec VrRateSpec.
From Verif.Proof Require Import SmoothProof GDConverge NormProof VarRedProof SVRGProof SarahProof.
Import ListNotations.
Local Open Scope R_scope.

(** ** The trace: what was computed, counting shuffles *)
Section Trace.
  Variable mx : R.
  Notation RN := (RNum mx).
  Notation trace := (list (vev RN)).
  Variables (f : VFun RN) (cb : VCB RN).
  Hypothesis W : watching mx cb.
  Fixpoint compj (j : nat) (tr : trace) : Prop :=
    match tr with
    | [] => True
    | VGrad x i c g g' :: r => g = vf_grad f j x i c /\ g' = g /\ compj j r
    | VGradQ x i c g :: r => g = vf_grad f j x i c /\ compj j r
    | VShuffle :: r => compj (S j) r
    | _ :: r => compj j r
    end.
  Lemma shuffles_app2 (a b : trace) : shuffles (a ++ b) = (shuffles a + shuffles b)%nat.
  Proof. unfold shuffles. rewrite filter_app, app_length. reflexivity. Qed.
  Lemma computed_comp tr : computed f cb tr -> compj 0 tr.
  Proof.
    intros C. assert (G : forall b a, tr = a ++ b -> compj (shuffles a) b).
    { induction b as [|e b IH]; intros a E; [exact I|]. pose proof (C a e b E) as H.
      assert (E' : tr = (a ++ [e]) ++ b) by (rewrite <- app_assoc; exact E). specialize (IH _ E'). rewrite shuffles_app2 in IH.
      destruct e; cbn [compj]; cbn in IH; rewrite ?Nat.add_0_r in IH; auto.
      - destruct H as [H1 H2]. split; [exact H1|]. split; [|exact IH]. rewrite H2. apply W.
      - rewrite Nat.add_1_r in IH. exact IH. }
    exact (G tr [] eq_refl).
  Qed.
  Lemma compj_app : forall a b j, compj j (a ++ b) -> compj j a /\ compj (j + shuffles a) b.
  Proof.
    induction a as [|e a IH]; intros b j H; cbn in *; [rewrite Nat.add_0_r; auto|].
    destruct e; cbn in *; try (apply IH in H; exact H).
    - destruct H as (H1 & H2 & H). apply IH in H as [A B]. auto.
    - destruct H as (H1 & H). apply IH in H as [A B]. auto.
    - apply IH in H as [A B]. split; [exact A|]. unfold shuffles in *. cbn. rewrite Nat.add_succ_r. exact B.
  Qed.
End Trace.

Section Rate.
  Variable mx : R.
  Notation RN := (RNum mx).
  Variables (p : nat) (L mu eta : R) (F : list R -> R) (gF : list R -> list R) (y : list R).
  Hypothesis SM : smooth_on (space p) L F gF.
  Hypothesis SC : strongly_convex_on (space p) mu F.
  Hypothesis HM : 0 < mu <= L.
  Hypothesis HE : 0 < eta.
  Hypothesis Hy : length y = p.
  Hypothesis MN : forall z, length z = p -> F y <= F z.

  Lemma gF_len w : length w = p -> length (gF w) = p.
  Proof. intros E. destruct (proj1 SM w E) as [A _]. congruence. Qed.
  Lemma vsub_along : forall (x v : list R) t, length v = length x -> vsub (N := RN) x (vscale (N := RN) t v) = along x v (- t).
  Proof.
    unfold vsub, vscale. induction x as [|a x IH]; intros [|b v] t E; try discriminate; cbn; [reflexivity|].
    cbn in IH. rewrite IH by (cbn in E; lia). f_equal. lra.
  Qed.
  Lemma min_grad : sqn (gF y) = 0.
  Proof.
    pose proof (gstep_descends mx p L (/ L) F gF SM ltac:(lra) ltac:(apply Rinv_0_lt_compat; lra) ltac:(rewrite Rinv_l; lra) y Hy) as D.
    pose proof (MN _ (gstep_length mx p L (/ L) F gF SM y Hy)) as M. pose proof (sqn_nonneg (gF y)) as N.
    assert (0 < / L / 2) by (apply Rmult_lt_0_compat; [apply Rinv_0_lt_compat; lra|lra]). nra.
  Qed.
  Lemma grad_le w : length w = p -> nrm (gF w) <= L * dst w y.
  Proof.
    intros E. pose proof (proj2 SM w y E Hy) as B.
    assert (Z : nrm (gF y) = 0) by (unfold nrm; rewrite min_grad; apply sqrt_0).
    assert (D : dst (gF w) (gF y) <= L * dst w y).
    { apply dst_le; [apply Rmult_le_pos; [lra|apply dst_nonneg]|]. pose proof (dst_sq w y). nra. }
    (* |gF w| <= |gF w - gF y| + |gF y| *)
    pose proof (gF_len w E) as L1. pose proof (gF_len y Hy) as L2.
    assert (ZE : gF w = along (diff (gF w) (gF y)) (gF y) 1).
    { clear -L1 L2. assert (E : length (gF w) = length (gF y)) by congruence. revert E. generalize (gF y). generalize (gF w).
      intros u. induction u as [|a u IH]; intros [|b v] E; try discriminate; cbn; [reflexivity|]. rewrite <- IH by (cbn in E; lia). f_equal. lra. }
    rewrite ZE. eapply Rle_trans; [apply nrm_along; rewrite diff_length; congruence|]. rewrite Rabs_R1, Z. fold (dst (gF w) (gF y)). lra.
  Qed.

  Notation a := (eta * L).
  (** the error of k moves with a frozen gradient *)
  Definition err (k : nat) : R := (1 + a) ^ k - 1 - INR k * a.
  Lemma a_pos : 0 < a. Proof. apply Rmult_lt_0_compat; lra. Qed.
  Lemma err_S k : err (S k) = err k + a * ((1 + a) ^ k - 1).
  Proof. unfold err. rewrite S_INR. cbn [pow]. ring. Qed.
  Lemma pow_ge1 k : 1 <= (1 + a) ^ k.
  Proof. pose proof a_pos. apply pow_R1_Rle. lra. Qed.

  Lemma round_end m (w x : list R) : length w = p -> length x = p -> INR m * (4 * eta * (L * L)) <= mu ->
    dst x (along w (gF w) (- (INR m * eta))) <= err m * dst w y -> dst x y <= (1 - eta * mu / 4) ^ m * dst w y.
  Proof.
    intros Lw Lx C B. pose proof (dst_nonneg w y) as D0. pose proof (pos_INR m) as PM. pose proof a_pos as PA.
    assert (Lz : length (along w (gF w) (- (INR m * eta))) = p) by (rewrite along_length by (rewrite gF_len; congruence); exact Lw).
    pose proof (dst_tri x (along w (gF w) (- (INR m * eta))) y ltac:(congruence) ltac:(congruence)) as T.
    destruct (Nat.eq_dec m 0) as [->|NZ].
    - assert (Z0 : along w (gF w) (- (INR 0 * eta)) = w).
      { cbn [INR]. rewrite Rmult_0_l, Ropp_0. pose proof (gF_len w Lw) as G. assert (E : length (gF w) = length w) by congruence.
        clear -E. revert E. generalize (gF w). induction w as [|b w IH]; intros [|c v] E; try discriminate; cbn; [reflexivity|].
        rewrite IH by (cbn in E; lia). f_equal. lra. }
      rewrite Z0 in B, T. unfold err in B. cbn in B. cbn [pow]. nra.
    - assert (M1 : 1 <= INR m) by (change 1 with (INR 1); apply le_INR; lia).
      assert (MA : INR m * a <= / 4).
      { apply Rmult_le_reg_r with (4 * L); [lra|]. replace (INR m * a * (4 * L)) with (INR m * (4 * eta * (L * L))) by ring. lra. }
      assert (MMU : INR m * eta * mu <= / 4).
      { apply Rle_trans with (INR m * eta * L); [apply Rmult_le_compat_l; [apply Rmult_le_pos; lra|lra]|lra]. }
      assert (PE : 0 < INR m * eta) by (apply Rmult_lt_0_compat; lra).
      pose proof (gstep_contract mx p L (INR m * eta) F gF SM ltac:(lra) PE ltac:(lra) mu w y SC Lw Hy MN) as K.
      unfold gstep in K. rewrite vsub_along in K by (rewrite gF_len; congruence).
      assert (K' : dst (along w (gF w) (- (INR m * eta))) y <= (1 - INR m * eta * mu / 2) * dst w y).
      { apply dst_le; [apply Rmult_le_pos; lra|]. eapply Rle_trans; [exact K|]. rewrite <- dst_sq.
        assert (0 <= (INR m * eta * mu) * (INR m * eta * mu)) by apply Rle_0_sqr. nra. }
      assert (ER : err m <= INR m * eta * mu / 4).
      { unfold err. pose proof (growth a ltac:(lra) m ltac:(lra)) as G.
        assert (INR m * a * (INR m * a) <= INR m * eta * mu / 4); [|lra].
        replace (INR m * a * (INR m * a)) with ((INR m * eta) * ((INR m * (4 * eta * (L * L))) / 4)) by field.
        replace (INR m * eta * mu / 4) with ((INR m * eta) * (mu / 4)) by field. apply Rmult_le_compat_l; lra. }
      assert (BB : err m * dst w y <= INR m * eta * mu / 4 * dst w y) by (apply Rmult_le_compat_r; assumption).
      pose proof (bernoulli (eta * mu / 4)) as BN.
      assert (EM : 0 <= eta * mu) by (apply Rmult_le_pos; lra).
      assert (EM1 : eta * mu <= INR m * eta * mu) by nra.
      specialize (BN ltac:(lra) ltac:(lra) m ltac:(lra)).
      apply Rle_trans with ((1 - INR m * (eta * mu / 4)) * dst w y); [lra|]. apply Rmult_le_compat_r; [exact D0|exact BN].
  Qed.

  (** one more move with an estimate V of the frozen gradient *)
  Lemma move_bound k (w x V : list R) e : length w = p -> length x = p -> length V = p ->
    dst x (along w (gF w) (- (INR k * eta))) <= err k * dst w y -> dst V (gF w) <= e ->
    e <= L * (((1 + a) ^ k - 1) * dst w y) ->
    dst (along x V (- eta)) (along w (gF w) (- (INR (S k) * eta))) <= err (S k) * dst w y.
  Proof.
    intros Lw Lx LV B H1 H2. pose proof (gF_len w Lw) as Lg.
    replace (along w (gF w) (- (INR (S k) * eta))) with (along (along w (gF w) (- (INR k * eta))) (gF w) (- eta)).
    2:{ rewrite along_along by congruence. f_equal. rewrite S_INR. ring. }
    eapply Rle_trans; [apply dst_move; rewrite ?along_length; congruence|].
    rewrite Rabs_right by lra. rewrite err_S.
    assert (eta * dst V (gF w) <= eta * (L * (((1 + a) ^ k - 1) * dst w y))) by (apply Rmult_le_compat_l; lra). lra.
  Qed.
  (** how far from the snapshot *)
  Lemma away k (w x : list R) : length w = p -> length x = p ->
    dst x (along w (gF w) (- (INR k * eta))) <= err k * dst w y -> dst x w <= ((1 + a) ^ k - 1) * dst w y.
  Proof.
    intros Lw Lx B. pose proof (gF_len w Lw) as Lg. pose proof (pos_INR k) as PK.
    assert (Lz : length (along w (gF w) (- (INR k * eta))) = p) by (rewrite along_length by congruence; exact Lw).
    pose proof (dst_tri x (along w (gF w) (- (INR k * eta))) w ltac:(congruence) ltac:(congruence)) as T.
    assert (Q : dst (along w (gF w) (- (INR k * eta))) w <= INR k * eta * nrm (gF w)).
    { apply dst_le; [apply Rmult_le_pos; [apply Rmult_le_pos; lra|apply nrm_nonneg]|]. rewrite sqdist_along by congruence. rewrite <- nrm_sq. right. ring. }
    pose proof (grad_le w Lw) as G.
    assert (INR k * eta * nrm (gF w) <= INR k * eta * (L * dst w y)) by (apply Rmult_le_compat_l; [apply Rmult_le_pos; lra|exact G]).
    unfold err in B. lra.
  Qed.

  (** a correction: full + (g - h) / c *)
  Lemma correct (full g h : list R) (c : nat) d : length full = p -> length g = p -> length h = p -> (0 < c)%nat -> dst g h <= INR c * d ->
    let V := vadd (N := RN) full (over_n (N := RN) c (vsub (N := RN) g h)) in length V = p /\ dst V full <= d.
  Proof.
    intros Lf Lg Lh C H V. assert (C0 : 0 < INR c) by (change 0 with (INR 0); apply lt_INR, C).
    assert (E : diff V full = map (fun r => r / INR c) (diff g h) /\ length V = p).
    { assert (Nn : forall q, nofnat (N := RN) q = INR q) by (intros q; unfold nofnat; cbn; symmetry; apply INR_IZR_INZ).
      unfold V, over_n, vadd, vsub. rewrite Nn. cbn [ndiv RNum]. clear -Lf Lg Lh. revert g h p Lf Lg Lh.
      induction full as [|u full IH]; intros [|v g] [|z h] [|q] Lf Lg Lh; try discriminate; cbn; [auto|].
      destruct (IH g h q ltac:(cbn in *; lia) ltac:(cbn in *; lia) ltac:(cbn in *; lia)) as [A B]. cbn in A, B. split; [f_equal; [lra|exact A]|f_equal; exact B]. }
    destruct E as [E1 E2]. split; [exact E2|]. unfold dst. rewrite E1. unfold nrm, sqn.
    assert (Q : forall u, dotR (map (fun r => r / INR c) u) (map (fun r => r / INR c) u) = (/ INR c * / INR c) * dotR u u).
    { induction u as [|r u IH]; cbn; [ring|]. rewrite IH. unfold Rdiv. ring. }
    rewrite Q. assert (0 < / INR c) by (apply Rinv_0_lt_compat; exact C0). rewrite sqrt_mult_alt by nra. rewrite sqrt_square by lra.
    change (/ INR c * nrm (diff g h) <= d). fold (dst g h). apply Rmult_le_reg_l with (INR c); [exact C0|]. rewrite <- Rmult_assoc, Rinv_r by lra. lra.
  Qed.
End Rate.
