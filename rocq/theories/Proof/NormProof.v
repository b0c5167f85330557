(** Euclidean length of lists of reals. *)
From Coq Require Import List Arith Reals Lra Lia Permutation.
From Verif.Base Require Import Num.
From Verif.Spec Require Import Gradient ConvergeSpec VrRateSpec.
From Verif.Proof Require Import SmoothProof.
Import ListNotations.
Local Open Scope R_scope.

Definition nrm (u : list R) : R := sqrt (sqn u).
Lemma nrm_nonneg u : 0 <= nrm u. Proof. apply sqrt_pos. Qed.
Lemma nrm_sq u : nrm u * nrm u = sqn u. Proof. apply sqrt_sqrt, sqn_nonneg. Qed.
Lemma sqn_along : forall a b t, length b = length a -> sqn (along a b t) = sqn a + 2 * t * dotR a b + t * t * sqn b.
Proof. unfold sqn. induction a as [|x a IH]; intros [|y b] t E; try discriminate; cbn; [lra|]. rewrite IH by (cbn in E; lia). lra. Qed.
Lemma dotR_scale : forall a b t, dotR (map (Rmult t) a) b = t * dotR a b.
Proof. induction a as [|x a IH]; intros [|y b] t; cbn; try lra. rewrite IH. lra. Qed.
Lemma cs a b : dotR a b <= nrm a * nrm b.
Proof.
  destruct (Req_dec (sqn b) 0) as [Z|NZ].
  - (* b = 0 *)
    assert (D : dotR a b = 0).
    { clear -Z. revert a Z. induction b as [|y b IH]; intros [|x a]; unfold sqn; cbn; intros E; try reflexivity.
      pose proof (sqn_nonneg b) as S. unfold sqn in S. pose proof (Rle_0_sqr y) as Sy. unfold Rsqr in Sy.
      assert (y = 0) by nra. subst y. rewrite IH; [lra|]. unfold sqn. lra. }
    rewrite D. apply Rmult_le_pos; apply nrm_nonneg.
  - assert (P : 0 < nrm b). { apply sqrt_lt_R0. pose proof (sqn_nonneg b). lra. }
    pose proof (cauchy (nrm a / nrm b) a b) as C.
    assert (M : 0 <= nrm a / nrm b) by (apply Rmult_le_pos; [apply nrm_nonneg|left; apply Rinv_0_lt_compat; exact P]).
    specialize (C M). rewrite <- (nrm_sq b), <- (nrm_sq a) in C.
    replace (nrm a / nrm b * (nrm b * nrm b)) with (nrm a * nrm b) in C by (field; lra). apply C.
    right. field. lra.
Qed.
Lemma nrm_along a b t : length b = length a -> nrm (along a b t) <= nrm a + Rabs t * nrm b.
Proof.
  intros E. pose proof (nrm_nonneg a) as A. pose proof (nrm_nonneg b) as B. pose proof (Rabs_pos t) as T.
  assert (S : 0 <= nrm a + Rabs t * nrm b) by (apply Rplus_le_le_0_compat; [exact A|apply Rmult_le_pos; assumption]).
  apply Rsqr_incr_0; [|apply nrm_nonneg|exact S]. unfold Rsqr. rewrite nrm_sq, sqn_along by exact E.
  rewrite <- (nrm_sq a), <- (nrm_sq b).
  assert (C : t * dotR a b <= Rabs t * (nrm a * nrm b)).
  { destruct (Rle_dec 0 t) as [P|P].
    - rewrite Rabs_right by lra. apply Rmult_le_compat_l; [exact P|apply cs].
    - rewrite Rabs_left by lra. pose proof (cs (map (Rmult (-1)) a) b) as Q. rewrite dotR_scale in Q.
      assert (N : nrm (map (Rmult (-1)) a) = nrm a).
      { unfold nrm. f_equal. unfold sqn. clear. induction a as [|x a IH]; cbn; [reflexivity|]. rewrite IH. lra. }
      rewrite N in Q. nra. }
  assert (TT : t * t = Rabs t * Rabs t) by (rewrite <- Rabs_mult, Rabs_right; [reflexivity|apply Rle_ge, Rle_0_sqr]).
  rewrite TT. lra.
Qed.
Definition dst (a b : list R) : R := nrm (diff a b).
Lemma dst_sq a b : dst a b * dst a b = sqdist a b.
Proof. unfold dst. rewrite nrm_sq, sqn_diff. reflexivity. Qed.
Lemma dst_nonneg a b : 0 <= dst a b. Proof. apply nrm_nonneg. Qed.
Lemma dst_le a b m : 0 <= m -> sqdist a b <= m * m -> dst a b <= m.
Proof. intros M H. apply Rsqr_incr_0; [|apply nrm_nonneg|exact M]. unfold Rsqr. rewrite dst_sq. exact H. Qed.
Lemma dst_le_inv a b m : 0 <= m -> dst a b <= m -> sqdist a b <= m * m.
Proof. intros M H. rewrite <- dst_sq. apply Rmult_le_compat; try assumption; apply dst_nonneg. Qed.
Lemma dst_sym a b : dst a b = dst b a.
Proof. unfold dst, nrm. rewrite !sqn_diff, sqdist_sym. reflexivity. Qed.
Lemma dst_tri a b c : length a = length b -> length b = length c -> dst a c <= dst a b + dst b c.
Proof.
  intros E1 E2. unfold dst. replace (diff a c) with (along (diff a b) (diff b c) 1).
  - eapply Rle_trans; [apply nrm_along; rewrite !diff_length by congruence; congruence|]. rewrite Rabs_R1. lra.
  - revert b c E1 E2. induction a as [|x a IH]; intros [|y b] [|z c] E1 E2; try discriminate; cbn; [reflexivity|].
    rewrite IH by (cbn in *; lia). f_equal. lra.
Qed.
(** moving both points *)
Lemma dst_move x v z u t : length x = length z -> length v = length x -> length u = length x ->
  dst (along x v (- t)) (along z u (- t)) <= dst x z + Rabs t * dst v u.
Proof.
  intros E1 E2 E3. unfold dst. replace (diff (along x v (- t)) (along z u (- t))) with (along (diff x z) (diff v u) (- t)).
  - eapply Rle_trans; [apply nrm_along; rewrite !diff_length by congruence; congruence|]. rewrite Rabs_Ropp. lra.
  - revert v z u E1 E2 E3. induction x as [|a x IH]; intros [|b v] [|c z] [|d u] E1 E2 E3; try discriminate; cbn; [reflexivity|].
    rewrite IH by (cbn in *; lia). f_equal. lra.
Qed.
Lemma dst_plus a b c d : length b = length a -> length c = length a -> length d = length a ->
  dst (plus_vec a b) (plus_vec c d) <= dst a c + dst b d.
Proof.
  intros E1 E2 E3. unfold dst. replace (diff (plus_vec a b) (plus_vec c d)) with (along (diff a c) (diff b d) 1).
  - eapply Rle_trans; [apply nrm_along; rewrite !diff_length by congruence; congruence|]. rewrite Rabs_R1. lra.
  - revert b c d E1 E2 E3. induction a as [|x a IH]; intros [|y b] [|z c] [|w d] E1 E2 E3; try discriminate; cbn; [reflexivity|].
    rewrite IH by (cbn in *; lia). f_equal. lra.
Qed.
Lemma dst_div a b m : 0 < m -> length a = length b -> dst (map (fun r => r / m) a) (map (fun r => r / m) b) = dst a b / m.
Proof.
  intros M E. assert (Q : sqdist (map (fun r => r / m) a) (map (fun r => r / m) b) = (/ m) * (/ m) * sqdist a b).
  { revert b E. induction a as [|x a IH]; intros [|y b] E; try discriminate; cbn; [lra|]. rewrite IH by (cbn in E; lia). unfold Rdiv. ring. }
  unfold dst, nrm. rewrite !sqn_diff, Q. assert (0 < / m) by (apply Rinv_0_lt_compat; exact M).
  rewrite sqrt_mult_alt by nra. rewrite sqrt_square by lra. unfold Rdiv. ring.
Qed.
Lemma nrm_zero_diff a b : length a = length b -> (forall x, In x b -> x = 0) -> dst a b = nrm a.
Proof.
  intros E H. unfold dst. f_equal. revert b E H. induction a as [|x a IH]; intros [|y b] E H; try discriminate; cbn; [reflexivity|].
  rewrite IH; [|cbn in E; lia|intros; apply H; right; assumption]. rewrite (H y) by (left; reflexivity). f_equal. lra.
Qed.

(** ** Sums of vectors *)
Lemma plus_len p : forall a b, length a = p -> length b = p -> length (plus_vec a b) = p.
Proof. induction p as [|p IH]; intros [|x a] [|y b] A B; try discriminate; cbn; [reflexivity|]. rewrite IH; cbn in *; lia. Qed.
Lemma sum_len p l : Forall (fun a => length a = p) l -> length (sum_vec p l) = p.
Proof. induction l as [|a l IH]; intros F; cbn; [apply repeat_length|]. inversion F; subst. apply plus_len; auto. Qed.
Lemma plus_comm : forall a b, plus_vec a b = plus_vec b a.
Proof. induction a as [|x a IH]; intros [|y b]; cbn; try reflexivity. rewrite IH. f_equal. lra. Qed.
Lemma plus_assoc : forall a b c, plus_vec a (plus_vec b c) = plus_vec (plus_vec a b) c.
Proof. induction a as [|x a IH]; intros [|y b] [|z c]; cbn; try reflexivity. rewrite IH. f_equal. lra. Qed.
Lemma plus_zero p : forall a, length a = p -> plus_vec a (repeat 0 p) = a.
Proof. induction p as [|p IH]; intros [|x a] A; try discriminate; cbn; [reflexivity|]. rewrite IH by (cbn in A; lia). f_equal. lra. Qed.
Lemma sum_app p l m : Forall (fun a => length a = p) l -> Forall (fun a => length a = p) m ->
  sum_vec p (l ++ m) = plus_vec (sum_vec p l) (sum_vec p m).
Proof.
  intros Fl Fm. induction l as [|a l IH]; cbn.
  - rewrite plus_comm, plus_zero; [reflexivity|apply sum_len, Fm].
  - inversion Fl; subst. fold (sum_vec (length a) (l ++ m)). fold (sum_vec (length a) l). rewrite IH by assumption. apply plus_assoc.
Qed.
Lemma sum_perm p l m : Permutation l m -> Forall (fun a => length a = p) l -> sum_vec p l = sum_vec p m.
Proof.
  intros P. induction P as [|a l m P IH|a b l|l m k P1 IH1 P2 IH2]; intros F; cbn.
  - reflexivity.
  - inversion F; subst. f_equal. apply IH; assumption.
  - rewrite !plus_assoc. f_equal. apply plus_comm.
  - rewrite IH1 by assumption. apply IH2. eapply Permutation_Forall; eassumption.
Qed.
Lemma sum_dst p (L d : R) (gr : nat -> list R -> list R) x y : forall l, 0 <= L * d ->
  (forall i, In i l -> length (gr i x) = p /\ length (gr i y) = p /\ dst (gr i x) (gr i y) <= L * d) ->
  dst (sum_vec p (map (fun i => gr i x) l)) (sum_vec p (map (fun i => gr i y) l)) <= INR (length l) * (L * d).
Proof.
  induction l as [|i l IH]; intros P H.
  - cbn. unfold dst, nrm. rewrite sqn_diff, sqdist_0, sqrt_0. lra.
  - cbn [map sum_vec fold_right length]. fold (sum_vec p (map (fun i => gr i x) l)). fold (sum_vec p (map (fun i => gr i y) l)).
    assert (HL : forall z, z = x \/ z = y -> length (sum_vec p (map (fun i => gr i z) l)) = p).
    { intros z Z. apply sum_len, Forall_forall. intros a I. apply in_map_iff in I as (k & <- & I). destruct (H k (or_intror I)) as (A & B & _). destruct Z as [-> | ->]; assumption. }
    destruct (H i (or_introl eq_refl)) as (A & B & C).
    eapply Rle_trans; [apply dst_plus; rewrite ?HL by auto; congruence|].
    rewrite S_INR. specialize (IH P (fun i I => H i (or_intror I))). lra.
Qed.

(** ** Growth *)
Lemma growth a : 0 <= a -> forall m, INR m * a <= 1 -> (1 + a) ^ m <= 1 + INR m * a + (INR m * a) * (INR m * a).
Proof.
  intros A. induction m as [|m IH]; intros H; [cbn; lra|].
  rewrite S_INR in *. pose proof (pos_INR m) as P. assert (H' : INR m * a <= 1) by nra. specialize (IH H'). cbn [pow].
  set (k := INR m) in *. assert (Q : (1 + a) * (1 + a) ^ m <= (1 + a) * (1 + k * a + k * a * (k * a))) by (apply Rmult_le_compat_l; lra).
  assert (KA : 0 <= k * a) by (apply Rmult_le_pos; lra).
  assert (S1 : k * a * (k * a) * a <= 1 * (k * a * a)) by nra. nra.
Qed.
Lemma bernoulli t : 0 <= t -> t <= 1 -> forall m, INR m * t <= 1 -> 1 - INR m * t <= (1 - t) ^ m.
Proof.
  intros A B. induction m as [|m IH]; intros H; [cbn; lra|]. rewrite S_INR in *. pose proof (pos_INR m) as P.
  assert (INR m * t <= 1) by nra. specialize (IH H0). cbn [pow].
  apply Rle_trans with ((1 - t) * (1 - INR m * t)); [nra|]. apply Rmult_le_compat_l; lra.
Qed.
Lemma sqrt_line t : t <= 1 -> sqrt (1 - t) <= 1 - t / 2.
Proof.
  intros H. rewrite <- (sqrt_square (1 - t / 2)) by lra. apply sqrt_le_1_alt. nra.
Qed.
