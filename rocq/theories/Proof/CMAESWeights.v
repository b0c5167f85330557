(** The weights and constants of CMA-ES over the reals. *)
From Coq Require Import List Arith Bool ZArith Reals Lra Lia.
From Verif.Base Require Import Num Vec Instances.
From Verif.Model Require Import Common CMAES LRSDP CMAESAdapt.
From Verif.Spec Require Import LpSpec SvecSpec PrimalDualSpec CMAESDistSpec.
From Verif.Proof Require Import ProximalProof LRSDPProof LpMore.
Import ListNotations.
Local Open Scope R_scope.

Section W.
Variable mx : R.
Notation RN := (RNum mx).

Lemma nofnat_R : forall k, nofnat (N := RN) k = INR k.
Proof. intros k. unfold nofnat. cbn. rewrite INR_IZR_INZ. reflexivity. Qed.

Definition raw (m : nat) (j : nat) : R := ln (INR m + 1 / 2) - ln (INR j + 1).
Lemma raw_eq : forall lambda, raw_weights (N := RN) ln lambda = map (raw (lambda / 2)) (seq 0 (lambda / 2)).
Proof.
  intros lambda. unfold raw_weights, mu. apply map_ext. intros j. rewrite !nofnat_R. cbn. unfold raw, two. cbn.
  replace (1 + 1) with 2 by lra. reflexivity.
Qed.
Lemma raw_pos : forall m j, (j < m)%nat -> 0 < raw m j.
Proof.
  intros m j H. unfold raw. assert (INR j + 1 <= INR m) by (rewrite <- S_INR; apply le_INR; lia).
  assert (0 <= INR j) by apply pos_INR. assert (ln (INR j + 1) < ln (INR m + 1 / 2)) by (apply ln_increasing; lra). lra.
Qed.
Lemma raw_dec : forall m j, raw m (S j) < raw m j.
Proof.
  intros m j. unfold raw. rewrite S_INR. assert (0 <= INR j) by apply pos_INR.
  assert (ln (INR j + 1) < ln (INR j + 1 + 1)) by (apply ln_increasing; lra). lra.
Qed.
Lemma sumR_pos : forall l, l <> [] -> (forall x, In x l -> 0 < x) -> 0 < sumR l.
Proof.
  intros [|a l] H P; [congruence|]. cbn [sumR]. assert (0 < a) by (apply P; left; reflexivity).
  assert (0 <= sumR l); [|lra]. apply sumR_nonneg. intros x Hx. left. apply P. right. exact Hx.
Qed.
Lemma sumR_div : forall l c, sumR (map (fun a => a / c) l) = sumR l / c.
Proof. intros l c. induction l as [|a l IH]; cbn [map sumR]; [unfold Rdiv; lra|]. rewrite IH. unfold Rdiv. lra. Qed.

Lemma weights_ok : forall lambda, (2 <= lambda)%nat ->
  recombination_weights (lambda / 2) (CMAESAdapt.weights (N := RN) ln lambda).
Proof.
  intros lambda HL. set (m := (lambda / 2)%nat). assert (Hm : (1 <= m)%nat) by (apply (Nat.div_le_lower_bound lambda 2 1); lia).
  assert (E : CMAESAdapt.weights (N := RN) ln lambda = map (fun a => a / sumR (map (raw m) (seq 0 m))) (map (raw m) (seq 0 m))).
  { unfold CMAESAdapt.weights. rewrite raw_eq, vsum_sumR. reflexivity. }
  assert (S : 0 < sumR (map (raw m) (seq 0 m))).
  { apply sumR_pos; [destruct m; [lia|discriminate]|]. intros x Hx. apply in_map_iff in Hx as (j & <- & Hj).
    apply raw_pos. apply in_seq in Hj. lia. }
  rewrite E. set (s := sumR _) in *. split; [rewrite !map_length, seq_length; reflexivity|]. split; [|split].
  - apply Forall_forall. intros x Hx. rewrite map_map in Hx. apply in_map_iff in Hx as (j & <- & Hj).
    apply in_seq in Hj. apply Rdiv_lt_0_compat; [apply raw_pos; lia|exact S].
  - intros j Hj. unfold elR. rewrite map_map.
    assert (G : forall k, (k < m)%nat -> nth k (map (fun x => raw m x / s) (seq 0 m)) 0 = raw m k / s).
    { intros k Hk. rewrite (nth_indep _ 0 (raw m 0 / s)) by (rewrite map_length, seq_length; exact Hk).
      rewrite (map_nth (fun x => raw m x / s)). rewrite seq_nth by exact Hk. reflexivity. }
    rewrite !G by lia. unfold Rdiv. apply Rmult_lt_compat_r; [apply Rinv_0_lt_compat; exact S|apply raw_dec].
  - rewrite sumR_div. fold s. field. lra.
Qed.

Lemma effective : forall m w, (1 <= m)%nat -> recombination_weights m w ->
  1 <= 1 / sumR (map (fun a => a * a) w) <= INR m.
Proof.
  intros m w Hm (L & P & _ & S). assert (Pm : 0 < INR m) by (apply lt_0_INR; lia).
  set (q := sumR (map (fun a => a * a) w)).
  assert (P' : forall x, In x w -> 0 < x) by (apply Forall_forall; exact P).
  assert (U : q <= 1).
  { assert (B : forall x, In x w -> x <= 1).
    { intros x Hx. apply in_split in Hx as (a & b & ->). rewrite sumR_app in S. cbn [sumR] in S.
      assert (0 <= sumR a) by (apply sumR_nonneg; intros y Hy; left; apply P'; apply in_or_app; left; exact Hy).
      assert (0 <= sumR b) by (apply sumR_nonneg; intros y Hy; left; apply P'; apply in_or_app; right; right; exact Hy). lra. }
    rewrite <- S. unfold q. replace (sumR w) with (sumR (map (fun x => x) w)) by (rewrite map_id; reflexivity). apply sumR_le_map. intros x Hx. specialize (B x Hx). apply P' in Hx. nra. }
  assert (LO : 1 <= q * INR m).
  { assert (G : 0 <= sumR (map (fun a => (a - 1 / INR m) * (a - 1 / INR m)) w)).
    { apply sumR_nonneg. intros x Hx. apply in_map_iff in Hx as (a & <- & _). apply Rle_0_sqr. }
    assert (X : forall l c, sumR (map (fun a => (a - c) * (a - c)) l) = sumR (map (fun a => a * a) l) - 2 * c * sumR l + INR (length l) * (c * c)).
    { intros l c. induction l as [|a l IH]; [cbn; lra|].
      change (length (a :: l)) with (Datatypes.S (length l)). rewrite S_INR. cbn [map sumR]. rewrite IH. lra. }
    rewrite X, S, L in G. fold q in G.
    assert (Y : q - 2 * (1 / INR m) * 1 + INR m * (1 / INR m * (1 / INR m)) = q - 1 / INR m) by (field; lra).
    rewrite Y in G. assert (1 / INR m <= q) by lra. apply (Rmult_le_compat_r (INR m)) in H; [|lra].
    unfold Rdiv in H. rewrite Rmult_assoc, Rinv_l in H by lra. lra. }
  assert (0 < q) by nra. unfold Rdiv. rewrite Rmult_1_l. split.
  - rewrite <- Rinv_1. apply Rinv_le_contravar; lra.
  - apply (Rmult_le_reg_l q); [assumption|]. rewrite Rinv_r by lra. exact LO.
Qed.

Lemma mu_eff_ok : forall lambda, (2 <= lambda)%nat -> 1 <= mu_eff (N := RN) ln lambda <= INR (lambda / 2).
Proof.
  intros lambda H. unfold mu_eff. rewrite vsum_sumR. apply effective; [|apply weights_ok; exact H].
  apply (Nat.div_le_lower_bound lambda 2 1); lia.
Qed.

Lemma ineq_frac : forall a b, 0 < a -> a < b -> 0 < a / b < 1.
Proof.
  intros a b Ha Hb. split; [apply Rdiv_lt_0_compat; lra|]. apply (Rmult_lt_reg_r b); [lra|]. unfold Rdiv. rewrite Rmult_assoc, Rinv_l by lra. lra.
Qed.

Lemma enn_pos : forall n, (1 <= n)%nat -> 0 < enn (N := RN) n.
Proof.
  intros n Hn. assert (X : 1 <= INR n) by (change 1 with (INR 1); apply le_INR; exact Hn).
  unfold enn, nN. rewrite !nofnat_R. cbn [nmul nsub nadd ndiv nsqrt n1 RNum T]. set (x := INR n) in *. change (INR 4) with (1 + 1 + 1 + 1).
  apply Rmult_lt_0_compat; [apply sqrt_lt_R0; lra|].
  assert (0 < 1 / (INR 21 * (x * x))) by (apply Rdiv_lt_0_compat; [lra|apply Rmult_lt_0_compat; [apply lt_0_INR; lia|nra]]).
  assert (1 / ((1 + 1 + 1 + 1) * x) <= 1 / 4); [|lra]. unfold Rdiv. rewrite !Rmult_1_l. apply Rinv_le_contravar; lra.
Qed.

(** the constants of CMAES *)
Lemma constants_ok : forall n lambda, (1 <= n)%nat -> (2 <= lambda)%nat ->
  0 < c_s (N := RN) ln n lambda < 1 /\ 1 < d_s (N := RN) ln n lambda /\
  0 < c_c (N := RN) ln n lambda < 1 /\ 0 < h_s (N := RN) n /\
  0 < c_1 (N := RN) ln n lambda < 1 /\ 0 <= c_mu (N := RN) ln n lambda /\
  c_1 (N := RN) ln n lambda + c_mu (N := RN) ln n lambda <= 1.
Proof.
  intros n lambda Hn HL. pose proof (mu_eff_ok lambda HL) as [M _]. pose proof (enn_pos n Hn) as EP.
  assert (X : 1 <= INR n) by (change 1 with (INR 1); apply le_INR; exact Hn).
  assert (CS : 0 < c_s (N := RN) ln n lambda < 1).
  { unfold c_s, two, nN. rewrite !nofnat_R. cbn [nmul nsub nadd ndiv nsqrt n1 RNum T]. set (m := mu_eff _ _) in *. set (x := INR n) in *.
    change (INR 5) with (1 + 1 + 1 + 1 + 1). apply ineq_frac; lra. }
  split; [exact CS|]. split; [|split; [|split]].
  - unfold d_s, two, nN. cbn [nmul nsub nadd ndiv nsqrt n1 n0 nlt RNum T]. set (a := sqrt _ - 1).
    destruct (Rltb_spec a 0); lra.
  - unfold c_c, two, nN. rewrite !nofnat_R. cbn [nmul nsub nadd ndiv nsqrt n1 RNum T]. set (m := mu_eff _ _) in *. set (x := INR n) in *.
    change (INR 4) with (1 + 1 + 1 + 1).
    assert (0 < m / x) by (apply Rdiv_lt_0_compat; lra). replace ((1 + 1) * m / x) with (2 * (m / x)) by (field; lra).
    apply ineq_frac; lra.
  - unfold h_s, dec, two, nN. rewrite !nofnat_R. cbn [nmul nsub nadd ndiv nsqrt n1 RNum T]. apply Rmult_lt_0_compat; [|exact EP].
    set (x := INR n) in *. assert (0 < (1 + 1) / (x + 1)) by (apply Rdiv_lt_0_compat; lra).
    assert (0 < INR 14 / INR 10) by (apply Rdiv_lt_0_compat; apply lt_0_INR; lia). lra.
  - assert (C1 : 0 < c_1 (N := RN) ln n lambda < 1).
    { unfold c_1, dec, two, nN. rewrite !nofnat_R. cbn [nmul nsub nadd ndiv nsqrt n1 RNum T]. set (m := mu_eff _ _) in *. set (x := INR n) in *.
      assert (Y : 1 < INR 13 / INR 10).
      { replace (INR 13) with 13 by (rewrite INR_IZR_INZ; reflexivity). replace (INR 10) with 10 by (rewrite INR_IZR_INZ; reflexivity). lra. }
      set (y := INR 13 / INR 10) in *. apply ineq_frac; [lra|]. nra. }
    split; [exact C1|]. unfold c_mu. cbn [nlt RNum T]. set (c1 := c_1 (N := RN) ln n lambda) in *.
    match goal with |- context [Rltb ?a _] => set (b := a) end.
    assert (Hb : 0 <= b).
    { unfold b, two, nN. rewrite !nofnat_R. cbn [nmul nsub nadd ndiv nsqrt n1 RNum T]. set (m := mu_eff _ _) in *. set (x := INR n) in *.
      assert (0 <= m - (1 + 1) + 1 / m).
      { replace (m - (1 + 1) + 1 / m) with ((m - 1) * (m - 1) / m) by (field; lra).
        apply Rmult_le_pos; [nra|]. left. apply Rinv_0_lt_compat. lra. }
      apply Rmult_le_pos; [nra|]. left. apply Rinv_0_lt_compat.
      assert (EQ : (1 + 1) * m / (1 + 1) = m) by (field; lra). rewrite EQ. nra. }
    cbn [nsub n1 RNum T]. clearbody b. destruct (Rltb_spec b (1 - c1)); lra.
Qed.
End W.
