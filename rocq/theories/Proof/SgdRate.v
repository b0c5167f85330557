(** One pass of SGD over a strongly convex sum, whatever the order. *)
From Coq Require Import List Arith Bool Reals Lra Lia Permutation.
From Verif.Base Require Import Num Vec Instances.
From Verif.Model Require Import Common.
From Verif.Spec Require Import Gradient ConvergeSpec FWSpec VrRateSpec SgdRateSpec.
From Verif.Proof Require Import SmoothProof GDConverge NormProof VrRate.
Import ListNotations.
Local Open Scope R_scope.

Lemma firstn_split {A} : forall (l : list A) k c, firstn (k + c) l = firstn k l ++ firstn c (skipn k l).
Proof. induction l as [|a l IH]; intros [|k] c; cbn; try reflexivity; [destruct c; reflexivity|]. rewrite IH. reflexivity. Qed.
Lemma sumR_app l : forall m, sumR (l ++ m) = sumR l + sumR m.
Proof. induction l as [|a l IH]; intros m; cbn; [lra|]. rewrite IH. lra. Qed.
Lemma sumR_perm l m : Permutation l m -> sumR l = sumR m.
Proof. intros P. induction P; cbn; lra. Qed.
Lemma sumR_nonneg l : Forall (fun a => 0 <= a) l -> 0 <= sumR l.
Proof. induction l as [|a l IH]; intros F; cbn; [lra|]. pose proof (Forall_inv F). pose proof (IH (Forall_inv_tail F)). lra. Qed.
Lemma dist_dst a b : dist a b = dst a b.
Proof. unfold dist, dst, nrm. rewrite sqn_diff. reflexivity. Qed.
Lemma along_dst : forall (x v : list R) t, length v = length x -> dst (along x v t) x = Rabs t * nrm v.
Proof.
  intros x v t E. assert (Q : sqn (diff (along x v t) x) = t * t * sqn v).
  { rewrite sqn_diff. unfold sqn. revert v E. induction x as [|a x IH]; intros [|b v] E; try discriminate; cbn; [lra|]. rewrite IH by (cbn in E; lia). lra. }
  unfold dst, nrm. rewrite Q, sqrt_mult_alt by nra. f_equal. change (t * t) with (Rsqr t). apply sqrt_Rsqr_abs.
Qed.
Lemma along_plus : forall (w a b : list R) t, length a = length w -> length b = length w -> along w (plus_vec a b) t = along (along w a t) b t.
Proof. induction w as [|x w IH]; intros [|y a] [|z b] t E1 E2; try discriminate; cbn; [reflexivity|]. rewrite IH by (cbn in *; lia). f_equal. lra. Qed.
Lemma along_zero : forall (w : list R) t, along w (repeat 0 (length w)) t = w.
Proof. induction w as [|x w IH]; intros t; cbn; [reflexivity|]. rewrite IH. f_equal. lra. Qed.
Lemma nrm_plus a b : length b = length a -> nrm (plus_vec a b) <= nrm a + nrm b.
Proof.
  intros E. replace (plus_vec a b) with (along a b 1).
  - eapply Rle_trans; [apply nrm_along; exact E|]. rewrite Rabs_R1. lra.
  - revert b E. induction a as [|x a IH]; intros [|y b] E; try discriminate; cbn; [reflexivity|]. rewrite IH by (cbn in E; lia). f_equal. lra.
Qed.
Lemma nrm_zero p : nrm (repeat 0 p) = 0.
Proof. unfold nrm, sqn. replace (dotR (repeat 0 p) (repeat 0 p)) with 0; [apply sqrt_0|]. induction p; cbn; lra. Qed.
Lemma nrm_sum p : forall l, Forall (fun a => length a = p) l -> nrm (sum_vec p l) <= sumR (map nrm l).
Proof.
  induction l as [|a l IH]; intros F; cbn; [rewrite nrm_zero; lra|]. pose proof (Forall_inv F) as A. pose proof (Forall_inv_tail F) as B.
  specialize (IH B). pose proof (sum_len p l B) as C. unfold sum_vec in IH, C.
  eapply Rle_trans; [apply nrm_plus; congruence|]. lra.
Qed.

Lemma vsub_along_pass {mx} : forall (x v : list R) t, length v = length x -> vsub (N := RNum mx) x (vscale (N := RNum mx) t v) = along x v (- t).
Proof.
  unfold vsub, vscale. induction x as [|a x IH]; intros [|b v] t E; try discriminate; cbn; [reflexivity|].
  cbn in IH. rewrite IH by (cbn in E; lia). f_equal. lra.
Qed.

Section Pass.
  Variable mx : R.
  Variables (p n : nat) (L mu h : R) (gr : nat -> list R -> list R) (F : list R -> R) (y : list R).
  Notation gF := (avg_grad p n gr).
  Hypothesis ES : each_smooth p n L gr.
  Hypothesis SM : smooth_on (space p) L F gF.
  Hypothesis SC : strongly_convex_on (space p) mu F.
  Hypothesis HM : 0 < mu <= L.
  Hypothesis HE : 0 < h.
  Hypothesis Hn : (0 < n)%nat.
  Hypothesis Hy : length y = p.
  Hypothesis MN : forall z, length z = p -> F y <= F z.
  Hypothesis SMALL : 8 * (h * INR n) * (L * L) <= mu.
  Notation S0 := (disagreement n gr y).
  Notation q := (1 - h * INR n * mu / 4).

  Lemma n_pos : 0 < INR n. Proof. apply lt_0_INR, Hn. Qed.
  Lemma hn_pos : 0 < h * INR n. Proof. apply Rmult_lt_0_compat; [exact HE|apply n_pos]. Qed.
  Lemma hnL : h * INR n * L <= / 8.
  Proof.
    apply Rmult_le_reg_r with (8 * L); [lra|]. replace (/ 8 * (8 * L)) with L by field.
    replace (h * INR n * L * (8 * L)) with (8 * (h * INR n) * (L * L)) by ring. lra.
  Qed.
  Lemma q_range : 0 < q < 1.
  Proof. pose proof hn_pos. pose proof hnL. assert (h * INR n * mu <= h * INR n * L) by (apply Rmult_le_compat_l; lra). assert (0 < h * INR n * mu) by (apply Rmult_lt_0_compat; lra). lra. Qed.

  Variable order : list nat.
  Hypothesis PO : Permutation order (seq 0 n).
  Lemma ord_lt i : In i order -> (i < n)%nat.
  Proof. intros I. apply (Permutation_in _ PO) in I. apply in_seq in I. lia. Qed.
  Lemma ord_len : length order = n.
  Proof. apply Permutation_length in PO. rewrite seq_length in PO. exact PO. Qed.
  Definition used (l : list nat) : Prop := forall i, In i l -> (i < n)%nat.
  Notation gs x l := (map (fun i => gr i x) l).
  Definition tot (w : list R) (l : list nat) : R := sumR (map (fun i => nrm (gr i w)) l).
  Lemma gs_len x l : length x = p -> used l -> Forall (fun a => length a = p) (gs x l).
  Proof. intros E U. apply Forall_map, Forall_forall. intros i I. apply (ES i x x); auto. Qed.
  Lemma used_first k : used (firstn k order).
  Proof. intros i I. apply ord_lt. rewrite <- (firstn_skipn k order). apply in_or_app. auto. Qed.
  Lemma used_part k c : used (firstn c (skipn k order)).
  Proof. intros i I. apply ord_lt. rewrite <- (firstn_skipn k order). apply in_or_app. right. rewrite <- (firstn_skipn c (skipn k order)). apply in_or_app. auto. Qed.
  Lemma tot_nonneg w l : 0 <= tot w l.
  Proof. apply sumR_nonneg, Forall_map, Forall_forall. intros i _. apply nrm_nonneg. Qed.
  Lemma tot_le k w : tot w (firstn k order) <= tot w order.
  Proof. rewrite <- (firstn_skipn k order) at 2. unfold tot at 2. rewrite map_app, sumR_app. pose proof (tot_nonneg w (skipn k order)). unfold tot in *. lra. Qed.
  Lemma gr_dst i x w : (i < n)%nat -> length x = p -> length w = p -> dst (gr i x) (gr i w) <= L * dst x w.
  Proof.
    intros I E1 E2. apply dst_le; [apply Rmult_le_pos; [lra|apply dst_nonneg]|]. destruct (ES i x w I E1 E2) as [_ B]. pose proof (dst_sq x w). nra.
  Qed.
  Lemma gs_dst x w l : length x = p -> length w = p -> used l -> dst (sum_vec p (gs x l)) (sum_vec p (gs w l)) <= INR (length l) * (L * dst x w).
  Proof.
    intros E1 E2 U. apply sum_dst; [apply Rmult_le_pos; [lra|apply dst_nonneg]|]. intros i I.
    split; [apply (ES i x x); auto|]. split; [apply (ES i w w); auto|]. apply gr_dst; auto.
  Qed.

  (** [k] functions of the pass that started at [w] are done and [x] is reached *)
  Definition mid (w : list R) (k : nat) (x : list R) : Prop :=
    length w = p /\ length x = p /\ (k <= n)%nat /\
    dst x w <= h * tot w (firstn k order) * (1 + 2 * (h * L) * INR k) /\
    dst x (along w (sum_vec p (gs w (firstn k order))) (- h)) <= h * L * INR k * (2 * (h * tot w order)).
  Lemma mid_start w : length w = p -> mid w 0 w.
  Proof.
    intros E. unfold mid. cbn [firstn map INR]. change (sum_vec p []) with (repeat 0 p). unfold tot at 1. cbn [map sumR].
    assert (D : dst w w = 0). { pose proof (along_dst w (repeat 0 p) 0) as A. rewrite Rabs_R0, Rmult_0_l in A. rewrite <- E in A. rewrite along_zero in A. apply A. apply repeat_length. }
    rewrite <- E at 3. rewrite along_zero, D. repeat split; auto; try lia; try lra.
  Qed.
  Lemma near_start w k x : mid w k x -> dst x w <= 2 * (h * tot w order).
  Proof.
    intros (_ & _ & K & A & _). eapply Rle_trans; [exact A|]. pose proof (tot_nonneg w (firstn k order)). pose proof (tot_le k w). pose proof hnL.
    assert (INR k <= INR n) by (apply le_INR, K). pose proof (pos_INR k). assert (HL : 0 < h * L) by (apply Rmult_lt_0_compat; lra).
    assert (h * L * INR k <= h * L * INR n) by (apply Rmult_le_compat_l; lra).
    assert (0 <= h * tot w (firstn k order)) by (apply Rmult_le_pos; lra).
    apply Rle_trans with (h * tot w (firstn k order) * 2); [apply Rmult_le_compat_l; lra|].
    assert (h * tot w (firstn k order) <= h * tot w order) by (apply Rmult_le_compat_l; lra). lra.
  Qed.
  Lemma mid_step w k c x : mid w k x -> (k + c <= n)%nat -> mid w (k + c) (along x (sum_vec p (gs x (firstn c (skipn k order)))) (- h)).
  Proof.
    intros M K2. pose proof (near_start w k x M) as NS. destruct M as (Lw & Lx & K & A & B). set (l := firstn c (skipn k order)).
    pose proof (used_part k c) as U. fold l in U. pose proof (used_first k) as U1.
    assert (Ll : length l = c) by (unfold l; rewrite firstn_length, skipn_length, ord_len; lia).
    pose proof (gs_dst x w l Lx Lw U) as GD. rewrite Ll in GD.
    assert (Lg : length (sum_vec p (gs x l)) = p) by (apply sum_len, gs_len; auto).
    assert (Lgw : length (sum_vec p (gs w l)) = p) by (apply sum_len, gs_len; auto).
    assert (Ls : length (sum_vec p (gs w (firstn k order))) = p) by (apply sum_len, gs_len; auto).
    assert (Lx' : length (along x (sum_vec p (gs x l)) (- h)) = p) by (rewrite along_length; congruence).
    assert (NG : nrm (sum_vec p (gs w l)) <= tot w l) by (eapply Rle_trans; [apply nrm_sum, gs_len; auto|]; unfold tot; rewrite map_map; lra).
    assert (AH : Rabs (- h) = h) by (rewrite Rabs_Ropp, Rabs_right; lra).
    assert (TS : tot w (firstn (k + c) order) = tot w (firstn k order) + tot w l) by (unfold tot; rewrite firstn_split, map_app, sumR_app; reflexivity).
    set (d := dst x w) in *. assert (D0 : 0 <= d) by apply dst_nonneg. pose proof (pos_INR c) as C0. pose proof (pos_INR k) as K0.
    assert (HL : 0 < h * L) by (apply Rmult_lt_0_compat; lra).
    unfold mid. split; [exact Lw|]. split; [exact Lx'|]. split; [exact K2|]. rewrite plus_INR. split.
    - rewrite TS. set (tk := tot w (firstn k order)) in *. set (tl := tot w l) in *.
      assert (T0 : 0 <= tk) by apply tot_nonneg. assert (T1 : 0 <= tl) by apply tot_nonneg.
      assert (N2 : nrm (sum_vec p (gs x l)) <= tl + INR c * (L * d)).
      { replace (sum_vec p (gs x l)) with (along (diff (sum_vec p (gs x l)) (sum_vec p (gs w l))) (sum_vec p (gs w l)) 1).
        - eapply Rle_trans; [apply nrm_along; rewrite diff_length; congruence|]. rewrite Rabs_R1. unfold dst in GD. lra.
        - clear -Lg Lgw. assert (E : length (sum_vec p (gs w l)) = length (sum_vec p (gs x l))) by congruence. revert E. generalize (sum_vec p (gs w l)). generalize (sum_vec p (gs x l)).
          intros u. induction u as [|a u IH]; intros [|b v] E; try discriminate; cbn; [reflexivity|]. rewrite IH by (cbn in E; lia). f_equal. lra. }
      pose proof (dst_tri (along x (sum_vec p (gs x l)) (- h)) x w ltac:(congruence) ltac:(congruence)) as T.
      rewrite along_dst in T by congruence. rewrite AH in T. fold d in T.
      assert (T2 : h * nrm (sum_vec p (gs x l)) <= h * (tl + INR c * (L * d))) by (apply Rmult_le_compat_l; lra).
      assert (KL : h * L * INR k <= / 8).
      { pose proof hnL. assert (INR k <= INR n) by (apply le_INR, K). assert (h * L * INR k <= h * L * INR n) by (apply Rmult_le_compat_l; lra). lra. }
      set (a := h * L) in *. assert (DB : d * (1 + a * INR c) <= h * tk * (1 + 2 * a * INR k) * (1 + a * INR c)).
      { apply Rmult_le_compat_r; [|exact A]. assert (0 <= a * INR c) by (apply Rmult_le_pos; lra). lra. }
      assert (PB : (1 + 2 * a * INR k) * (1 + a * INR c) <= 1 + 2 * a * (INR k + INR c)).
      { assert (AC : 0 <= a * INR c) by (apply Rmult_le_pos; lra). assert (2 * (a * INR k) * (a * INR c) <= 2 * / 8 * (a * INR c)) by (apply Rmult_le_compat_r; lra). lra. }
      assert (HT : 0 <= h * tk) by (apply Rmult_le_pos; lra). assert (HT2 : 0 <= h * tl) by (apply Rmult_le_pos; lra).
      apply Rle_trans with (h * tl + d * (1 + a * INR c)); [unfold a; lra|].
      assert (Z1 : h * tk * ((1 + 2 * a * INR k) * (1 + a * INR c)) <= h * tk * (1 + 2 * a * (INR k + INR c))) by (apply Rmult_le_compat_l; lra).
      assert (Z2 : h * tl * 1 <= h * tl * (1 + 2 * a * (INR k + INR c))).
      { apply Rmult_le_compat_l; [exact HT2|]. assert (0 <= a * (INR k + INR c)) by (apply Rmult_le_pos; lra). lra. }
      lra.
    - rewrite firstn_split, map_app, sum_app by (apply gs_len; auto). fold l. rewrite along_plus by congruence.
      eapply Rle_trans; [apply dst_move; rewrite ?along_length; congruence|].
      rewrite (Rabs_right h) by lra.
      assert (GB : h * dst (sum_vec p (gs x l)) (sum_vec p (gs w l)) <= h * (INR c * (L * (2 * (h * tot w order))))).
      { apply Rmult_le_compat_l; [lra|]. eapply Rle_trans; [exact GD|]. apply Rmult_le_compat_l; [lra|]. apply Rmult_le_compat_l; [lra|exact NS]. }
      lra.
  Qed.
  Lemma tot_bound w : length w = p -> tot w order <= INR n * (L * dst w y) + S0.
  Proof.
    intros Lw. unfold tot, disagreement. rewrite (sumR_perm _ _ (Permutation_map (fun i => nrm (gr i w)) PO)). unfold len. fold nrm.
    assert (G : forall l, used l -> sumR (map (fun i => nrm (gr i w)) l) <= INR (length l) * (L * dst w y) + sumR (map (fun i => sqrt (sqn (gr i y))) l)).
    { induction l as [|i l IH]; intros U; [cbn; lra|]. cbn [map sumR length]. rewrite S_INR.
      assert (Ui : (i < n)%nat) by (apply U; left; reflexivity). specialize (IH (fun j J => U j (or_intror J))).
      pose proof (gr_dst i w y Ui Lw Hy) as D. assert (L1 : length (gr i w) = p) by (apply (ES i w w); auto). assert (L2 : length (gr i y) = p) by (apply (ES i y y); auto).
      assert (nrm (gr i w) <= dst (gr i w) (gr i y) + nrm (gr i y)).
      { replace (gr i w) with (along (diff (gr i w) (gr i y)) (gr i y) 1) at 1.
        - eapply Rle_trans; [apply nrm_along; rewrite diff_length; congruence|]. rewrite Rabs_R1. unfold dst. lra.
        - clear -L1 L2. assert (E : length (gr i y) = length (gr i w)) by congruence. revert E. generalize (gr i y). generalize (gr i w).
          intros u. induction u as [|a u IH]; intros [|b v] E; try discriminate; cbn; [reflexivity|]. rewrite IH by (cbn in E; lia). f_equal. lra. }
      unfold nrm in *. lra. }
    specialize (G (seq 0 n)). rewrite seq_length in G. apply G. intros i I. apply in_seq in I. lia.
  Qed.
  Lemma S0_nonneg : 0 <= S0.
  Proof. apply sumR_nonneg, Forall_map, Forall_forall. intros i _. apply sqrt_pos. Qed.
  Lemma mid_any w k x : mid w k x -> dst x y <= 5 / 4 * dst w y + 2 * (h * S0).
  Proof.
    intros M. pose proof (near_start w k x M) as NS. destruct M as (Lw & Lx & _). pose proof (tot_bound w Lw) as TB. pose proof hnL.
    pose proof (dst_tri x w y ltac:(congruence) ltac:(congruence)). pose proof (dst_nonneg w y).
    assert (h * tot w order <= h * (INR n * (L * dst w y) + S0)) by (apply Rmult_le_compat_l; lra).
    assert (h * INR n * L * dst w y <= / 8 * dst w y) by (apply Rmult_le_compat_r; lra). lra.
  Qed.
  Lemma sum_avg w : length w = p -> along w (sum_vec p (gs w order)) (- h) = along w (gF w) (- (INR n * h)).
  Proof.
    intros Lw. rewrite (sum_perm p _ _ (Permutation_map (fun i => gr i w) PO)) by (apply gs_len; auto; intros i; apply ord_lt).
    unfold avg_grad. assert (E : length (sum_vec p (gs w (seq 0 n))) = length w).
    { rewrite sum_len; [congruence|]. apply gs_len; auto. intros i I. apply in_seq in I. lia. }
    pose proof n_pos as NP. revert E. generalize (sum_vec p (gs w (seq 0 n))). clear -NP. induction w as [|a w IH]; intros [|b v] E; try discriminate; cbn; [reflexivity|].
    rewrite IH by (cbn in E; lia). f_equal. field. lra.
  Qed.
  Theorem mid_end w x : mid w n x -> dst x y <= q * dst w y + 2 * h * h * INR n * L * S0.
  Proof.
    intros (Lw & Lx & _ & _ & B). rewrite <- ord_len in B at 1. rewrite firstn_all in B. rewrite sum_avg in B by exact Lw.
    pose proof (tot_bound w Lw) as TB. pose proof hn_pos as HN. pose proof hnL as HL. pose proof (dst_nonneg w y) as D0. pose proof n_pos as NP.
    assert (Lf : length (gF w) = p) by (destruct (proj1 SM w Lw) as [A _]; congruence).
    pose proof (dst_tri x (along w (gF w) (- (INR n * h))) y ltac:(rewrite along_length; congruence) ltac:(rewrite along_length; congruence)) as T.
    pose proof (gstep_contract mx p L (INR n * h) F gF SM ltac:(lra) ltac:(lra) ltac:(lra) mu w y SC Lw Hy MN) as K.
    unfold gstep in K. rewrite (vsub_along_pass w (gF w)) in K by congruence.
    assert (HNM : h * INR n * mu <= h * INR n * L) by (apply Rmult_le_compat_l; lra).
    assert (K' : dst (along w (gF w) (- (INR n * h))) y <= (1 - INR n * h * mu / 2) * dst w y).
    { apply dst_le; [apply Rmult_le_pos; lra|]. eapply Rle_trans; [exact K|]. rewrite <- dst_sq.
      assert (0 <= (INR n * h * mu) * (INR n * h * mu)) by apply Rle_0_sqr. nra. }
    assert (HL0 : 0 <= 2 * (h * INR n * L) * h) by (repeat apply Rmult_le_pos; lra).
    assert (B' : h * L * INR n * (2 * (h * tot w order)) <= 2 * (h * INR n * L) * h * (INR n * (L * dst w y) + S0)).
    { replace (h * L * INR n * (2 * (h * tot w order))) with (2 * (h * INR n * L) * h * tot w order) by ring. apply Rmult_le_compat_l; assumption. }
    assert (Q : 2 * (h * INR n * L) * h * (INR n * (L * dst w y)) <= h * INR n * mu / 4 * dst w y).
    { replace (2 * (h * INR n * L) * h * (INR n * (L * dst w y))) with (h * INR n * (8 * (h * INR n) * (L * L) / 4) * dst w y) by field.
      apply Rmult_le_compat_r; [exact D0|]. replace (h * INR n * mu / 4) with (h * INR n * (mu / 4)) by field. apply Rmult_le_compat_l; lra. }
    lra.
  Qed.
  (** the floor *)
  Notation V := (8 * h * L * S0 / mu).
  Lemma floor_fix : q * V + 2 * h * h * INR n * L * S0 = V.
  Proof. field. lra. Qed.
  Theorem pass_end w x e D : mid w n x -> dst w y <= q ^ e * D + V -> dst x y <= q ^ S e * D + V.
  Proof.
    intros M B. eapply Rle_trans; [exact (mid_end w x M)|]. pose proof q_range as Q. rewrite <- floor_fix at 1. cbn [pow].
    assert (q * dst w y <= q * (q ^ e * D + V)) by (apply Rmult_le_compat_l; lra). lra.
  Qed.
End Pass.
