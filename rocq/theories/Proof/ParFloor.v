(** One epoch of parallel SGD over a strongly convex sum, whatever the schedule. *)
From Coq Require Import List Arith Bool Reals Lra Lia Permutation.
From Verif.Base Require Import Num Vec Instances.
From Verif.Model Require Import Common SA ParallelSgd.
From Verif.Spec Require Import Gradient ConvergeSpec FWSpec VrRateSpec SgdRateSpec ParSpec ParSerialSpec.
From Verif.Proof Require Import SmoothProof GDConverge NormProof VrRate SgdRate SAProof ParProof ParRun ParSerial.
Import ListNotations.
Local Open Scope R_scope.

(** vectors element by element *)
Lemma nth_plus : forall a b q, length b = length a -> nth q (plus_vec a b) 0 = nth q a 0 + nth q b 0.
Proof. induction a as [|x a IH]; intros [|y b] [|q] E; try discriminate; cbn; try lra. apply IH. cbn in E. lia. Qed.
Lemma nth_along : forall a b t q, length b = length a -> nth q (along a b t) 0 = nth q a 0 + t * nth q b 0.
Proof. induction a as [|x a IH]; intros [|y b] t [|q] E; try discriminate; cbn; try lra. apply IH. cbn in E. lia. Qed.
Lemma nth_repeat0 p : forall q, nth q (repeat 0 p) 0 = 0.
Proof. induction p as [|p IH]; intros [|q]; cbn; auto. Qed.
Lemma nth_sum p q : forall l, Forall (fun a => length a = p) l -> nth q (sum_vec p l) 0 = sumR (map (fun v => nth q v 0) l).
Proof.
  induction l as [|a l IH]; intros F; cbn; [apply nth_repeat0|]. pose proof (Forall_inv F) as A. pose proof (Forall_inv_tail F) as B.
  rewrite <- IH by exact B. pose proof (sum_len p l B) as C. unfold sum_vec in *. apply nth_plus. congruence.
Qed.
Lemma sqn_mono : forall a b, length b = length a -> (forall q, Rabs (nth q a 0) <= nth q b 0) -> sqn a <= sqn b.
Proof.
  unfold sqn. induction a as [|x a IH]; intros [|y b] E H; try discriminate; cbn; [lra|].
  pose proof (H 0%nat) as H0. cbn in H0. specialize (IH b ltac:(cbn in E; lia) (fun q => H (S q))).
  assert (x * x <= y * y). { pose proof (Rabs_pos x). replace (x * x) with (Rabs x * Rabs x); [nra|]. rewrite <- Rabs_mult. apply Rabs_right. nra. }
  lra.
Qed.
Lemma nrm_scale c : 0 <= c -> forall u, nrm (map (Rmult c) u) = c * nrm u.
Proof.
  intros C u. unfold nrm. replace (sqn (map (Rmult c) u)) with (c * c * sqn u).
  - rewrite sqrt_mult_alt by nra. f_equal. apply sqrt_square, C.
  - unfold sqn. induction u as [|a u IH]; cbn; [lra|]. rewrite <- IH. lra.
Qed.
Lemma nrm_abs u : nrm (map Rabs u) = nrm u.
Proof.
  unfold nrm. f_equal. unfold sqn. induction u as [|a u IH]; cbn; [reflexivity|]. rewrite IH. f_equal. rewrite <- Rabs_mult. apply Rabs_right. nra.
Qed.
Lemma nth_abs : forall u q, nth q (map Rabs u) 0 = Rabs (nth q u 0).
Proof. induction u as [|a u IH]; intros [|q]; cbn; rewrite ?Rabs_R0; auto. Qed.
Lemma nth_scale c : forall u q, nth q (map (Rmult c) u) 0 = c * nth q u 0.
Proof. induction u as [|a u IH]; intros [|q]; cbn; try lra. apply IH. Qed.
Lemma nth_diff : forall a b q, length b = length a -> nth q (diff a b) 0 = nth q a 0 - nth q b 0.
Proof. induction a as [|x a IH]; intros [|y b] [|q] E; try discriminate; cbn; try lra. apply IH. cbn in E. lia. Qed.
Lemma dominate p c y w (vs : list (list R)) : 0 <= c -> length y = p -> length w = p -> Forall (fun v => length v = p) vs ->
  (forall q, Rabs (nth q y 0 - nth q w 0) <= c * sumR (map (fun v => Rabs (nth q v 0)) vs)) ->
  dst y w <= c * sumR (map nrm vs).
Proof.
  intros C Ly Lw FV H. set (u := sum_vec p (map (map Rabs) vs)).
  assert (FA : Forall (fun v => length v = p) (map (map Rabs) vs)).
  { apply Forall_map. eapply Forall_impl; [|exact FV]. intros v Lv. cbn beta. rewrite map_length. exact Lv. }
  assert (Lu : length u = p) by (apply sum_len, FA).
  apply Rle_trans with (nrm (map (Rmult c) u)).
  - unfold dst, nrm. apply sqrt_le_1_alt. apply sqn_mono; [rewrite map_length, diff_length; congruence|].
    intros q. rewrite nth_diff by congruence. rewrite nth_scale. unfold u. rewrite nth_sum by exact FA. rewrite map_map.
    replace (map (fun v => nth q (map Rabs v) 0) vs) with (map (fun v => Rabs (nth q v 0)) vs); [apply H|].
    apply map_ext. intros v. symmetry. apply nth_abs.
  - rewrite nrm_scale by exact C. apply Rmult_le_compat_l; [exact C|]. eapply Rle_trans; [apply nrm_sum, FA|].
    rewrite map_map. replace (map (fun v => nrm (map Rabs v)) vs) with (map nrm vs); [lra|]. apply map_ext. intros v. symmetry. apply nrm_abs.
Qed.

(** sparse and dense *)
Section Sparse.
  Variable mx : R.
  Notation RN := (RNum mx).
  Notation am := (amounts (N := RN)).
  Lemma am_below h : forall v q from, (q < from)%nat -> am q (scaled (N := RN) h (nonzeros from v)) = [].
  Proof.
    induction v as [|a v IH]; intros q from L; [reflexivity|]. cbn. destruct (Req_EM_T a 0); [apply IH; lia|].
    cbn. destruct (Nat.eqb_spec from q); [lia|]. apply IH. lia.
  Qed.
  Lemma am_at h : forall v q from, am (from + q) (scaled (N := RN) h (nonzeros from v)) =
    if Req_EM_T (nth q v 0) 0 then [] else [h * nth q v 0].
  Proof.
    induction v as [|a v IH]; intros q from.
    - cbn. destruct q; destruct (Req_EM_T 0 0); congruence.
    - destruct q as [|q]; cbn [nonzeros nth].
      + rewrite Nat.add_0_r. destruct (Req_EM_T a 0); [apply am_below; lia|]. cbn. rewrite Nat.eqb_refl. cbn. f_equal. apply am_below. lia.
      + replace (from + S q)%nat with (S from + q)%nat by lia. destruct (Req_EM_T a 0); [apply IH|]. cbn [scaled map]. unfold amounts. cbn.
        destruct (Nat.eqb_spec from (S (from + q))); [lia|]. exact (IH q (S from)).
  Qed.
  Lemma am_sum h v q : sumR (am q (scaled (N := RN) h (nonzeros 0 v))) = h * nth q v 0.
  Proof. pose proof (am_at h v q 0) as E. cbn [Nat.add] in E. rewrite E. destruct (Req_EM_T _ 0) as [Z|Z]; cbn; [rewrite Z|]; lra. Qed.
  Lemma am_abs h v q : 0 <= h -> sumR (map Rabs (am q (scaled (N := RN) h (nonzeros 0 v)))) = h * Rabs (nth q v 0).
  Proof.
    intros H. pose proof (am_at h v q 0) as E. cbn [Nat.add] in E. rewrite E. destruct (Req_EM_T _ 0) as [Z|Z]; cbn.
    - rewrite Z, Rabs_R0. lra.
    - rewrite Rabs_mult, (Rabs_right h) by lra. lra.
  Qed.
  Lemma am_app q us ws : am q (us ++ ws) = am q us ++ am q ws.
  Proof. unfold amounts. apply flat_map_app. Qed.
  Lemma fold_sub : forall (l : list R) (b : R), fold_left (nsub (n := RN)) l b = b - sumR l.
  Proof. induction l as [|a l IH]; intros b; cbn; [lra|]. cbn in IH. rewrite IH. lra. Qed.
  Lemma sum_abs_le : forall l, Rabs (sumR l) <= sumR (map Rabs l).
  Proof. induction l as [|a l IH]; cbn; [rewrite Rabs_R0; lra|]. pose proof (Rabs_triang a (sumR l)). lra. Qed.
  Lemma abs_sum_nonneg : forall l, 0 <= sumR (map Rabs l).
  Proof. intros l. apply sumR_nonneg, Forall_map, Forall_forall. intros a _. apply Rabs_pos. Qed.
  Lemma nth_after (us : list (nat * R)) (x : list R) q : nth_error (subs (N := RN) us x) q = option_map (fun b => b - sumR (am q us)) (nth_error x q).
  Proof. refine (eq_trans (subs_nth (N := RN) us x q) _). change (Num.T RN) with R. destruct (nth_error x q); [|reflexivity]. cbn [option_map]. f_equal. apply fold_sub. Qed.
End Sparse.

Section Epoch.
  Variable mx : R.
  Notation RN := (RNum mx).
  Variables (p n : nat) (L mu h : R) (gr : nat -> list R -> list R).
  Hypothesis ES : each_smooth p n L gr.
  Hypothesis HM : 0 < mu <= L.
  Hypothesis HE : 0 < h.
  Hypothesis SMALL : 8 * (h * INR n) * (L * L) <= mu.
  Variable w : list R.
  Hypothesis Lw : length w = p.

  (** the functions whose gradient was computed, with the point, newest first *)
  Notation pts := (list (nat * list R)).
  Definition made (l : pts) : list (list R) := map (fun e => gr (fst e) (snd e)) l.
  Definition spent (l : pts) : R := sumR (map nrm (made l)).
  Fixpoint drifted (l : pts) : Prop :=
    match l with
    | [] => True
    | (i, z) :: l' => (i < n)%nat /\ length z = p /\ dst z w <= h * spent l' /\ drifted l'
    end.
  Notation T l := (tot gr w (map fst l)).
  Lemma tot_cons i l : tot gr w (i :: l) = nrm (gr i w) + tot gr w l.
  Proof. reflexivity. Qed.
  Lemma nrm_near i z : (i < n)%nat -> length z = p -> nrm (gr i z) <= nrm (gr i w) + L * dst z w.
  Proof.
    intros I Lz. pose proof (gr_dst p n L mu gr ES HM i z w I Lz Lw) as D.
    assert (L1 : length (gr i z) = p) by (apply (ES i z z); auto). assert (L2 : length (gr i w) = p) by (apply (ES i w w); auto).
    replace (gr i z) with (along (diff (gr i z) (gr i w)) (gr i w) 1).
    - eapply Rle_trans; [apply nrm_along; rewrite diff_length; congruence|]. rewrite Rabs_R1. unfold dst in *. lra.
    - clear -L1 L2. assert (E : length (gr i w) = length (gr i z)) by congruence. revert E. generalize (gr i w). generalize (gr i z).
      intros u. induction u as [|a u IH]; intros [|b v] E; try discriminate; cbn; [reflexivity|]. rewrite IH by (cbn in E; lia). f_equal. lra.
  Qed.
  Lemma spent_bound : forall l, drifted l -> (length l <= n)%nat -> spent l <= T l * (1 + 2 * (h * L) * INR (length l)).
  Proof.
    pose proof (hnL n L mu h HM SMALL) as HN.
    assert (HL : 0 < h * L) by (apply Rmult_lt_0_compat; lra).
    induction l as [|[i z] l IH]; intros D K; [unfold spent; cbn; lra|]. destruct D as (I & Lz & Dz & D). cbn [length] in *.
    specialize (IH D ltac:(lia)). unfold spent, made in *. cbn [map fst snd sumR] in *. rewrite tot_cons.
    set (s := sumR (map nrm (map (fun e => gr (fst e) (snd e)) l))) in *. set (t := T l) in *. pose proof (tot_nonneg gr w (map fst l)) as T0. fold t in T0.
    pose proof (nrm_near i z I Lz) as NZ. pose proof (nrm_nonneg (gr i w)) as N0.
    assert (B : L * dst z w <= L * (h * s)) by (apply Rmult_le_compat_l; lra).
    rewrite S_INR. set (k := INR (length l)) in *. assert (K0 : 0 <= k) by apply pos_INR.
    assert (KL : h * L * k <= / 8).
    { assert (k <= INR n) by (apply le_INR; lia). assert (h * L * k <= h * L * INR n) by (apply Rmult_le_compat_l; lra). lra. }
    set (a := h * L) in *. 
    assert (S1 : s * (1 + a) <= t * (1 + 2 * a * k) * (1 + a)) by (apply Rmult_le_compat_r; lra).
    assert (S2 : (1 + 2 * a * k) * (1 + a) <= 1 + 2 * a * (k + 1)).
    { assert (2 * (a * k) * a <= 2 * / 8 * a) by (apply Rmult_le_compat_r; lra). lra. }
    assert (S3 : t * ((1 + 2 * a * k) * (1 + a)) <= t * (1 + 2 * a * (k + 1))) by (apply Rmult_le_compat_l; lra).
    assert (S4 : nrm (gr i w) * 1 <= nrm (gr i w) * (1 + 2 * a * (k + 1))).
    { apply Rmult_le_compat_l; [exact N0|]. assert (0 <= a * (k + 1)) by (apply Rmult_le_pos; lra). lra. }
    replace (L * (h * s)) with (a * s) in B by (unfold a; ring). lra.
  Qed.
  Lemma spent_twice l : drifted l -> (length l <= n)%nat -> spent l <= 2 * T l.
  Proof.
    intros D K. pose proof (spent_bound l D K) as B. pose proof (hnL n L mu h HM SMALL) as HN. pose proof (tot_nonneg gr w (map fst l)) as T0.
    assert (HL : 0 < h * L) by (apply Rmult_lt_0_compat; lra). assert (KN : INR (length l) <= INR n) by (apply le_INR; lia).
    assert (h * L * INR (length l) <= h * L * INR n) by (apply Rmult_le_compat_l; lra).
    eapply Rle_trans; [exact B|]. rewrite Rmult_comm. apply Rmult_le_compat_r; lra.
  Qed.
  Lemma all_near : forall l, drifted l -> (length l <= n)%nat ->
    Forall (fun e => (fst e < n)%nat /\ length (snd e) = p /\ dst (snd e) w <= 2 * (h * T l)) l.
  Proof.
    induction l as [|[i z] l IH]; intros D K; [constructor|]. destruct D as (I & Lz & Dz & D). cbn [length] in K.
    pose proof (spent_twice l D ltac:(lia)) as B. specialize (IH D ltac:(lia)). cbn [map fst]. rewrite tot_cons.
    pose proof (nrm_nonneg (gr i w)) as N0. assert (N1 : h * T l <= h * (nrm (gr i w) + T l)) by (apply Rmult_le_compat_l; lra). constructor.
    - cbn [fst snd]. split; [exact I|]. split; [exact Lz|]. assert (h * spent l <= h * (2 * T l)) by (apply Rmult_le_compat_l; lra). lra.
    - eapply Forall_impl; [|exact IH]. cbn beta. intros e (A1 & A2 & A3). split; [exact A1|]. split; [exact A2|]. lra.
  Qed.
  Lemma made_len l : Forall (fun e => (fst e < n)%nat /\ length (snd e) = p) l -> Forall (fun a => length a = p) (made l).
  Proof. intros F. apply Forall_map. eapply Forall_impl; [|exact F]. intros [i z] [I Lz]. apply (ES i z z); auto. Qed.
  Lemma made_dst D : 0 <= D -> forall l, Forall (fun e => (fst e < n)%nat /\ length (snd e) = p /\ dst (snd e) w <= D) l ->
    dst (sum_vec p (made l)) (sum_vec p (map (fun i => gr i w) (map fst l))) <= INR (length l) * (L * D).
  Proof.
    intros D0. induction l as [|[i z] l IH]; intros F.
    - cbn. rewrite Rmult_0_l. rewrite <- Lw at 1 2. pose proof (along_dst w (repeat 0 (length w)) 0 (repeat_length _ _)) as A.
      assert (Q : dst (repeat 0 (length w)) (repeat 0 (length w)) = 0).
      { unfold dst, nrm. replace (sqn (diff (repeat 0 (length w)) (repeat 0 (length w)))) with 0; [apply sqrt_0|].
        unfold sqn. generalize (length w). intros k. induction k as [|k IHk]; cbn; [reflexivity|]. rewrite <- IHk. lra. }
      rewrite Q. lra.
    - pose proof (Forall_inv F) as (I & Lz & Dz). pose proof (Forall_inv_tail F) as F'. specialize (IH F'). cbn [fst snd] in *.
      change (dst (plus_vec (gr i z) (sum_vec p (made l))) (plus_vec (gr i w) (sum_vec p (map (fun i => gr i w) (map fst l)))) <= INR (S (length l)) * (L * D)). rewrite S_INR.
      assert (L1 : length (gr i z) = p) by (apply (ES i z z); auto). assert (L2 : length (gr i w) = p) by (apply (ES i w w); auto).
      assert (F2 : Forall (fun e => (fst e < n)%nat /\ length (snd e) = p) l) by (eapply Forall_impl; [|exact F']; cbn beta; tauto).
      assert (L3 : length (sum_vec p (made l)) = p) by (apply sum_len, made_len, F2).
      assert (L4 : length (sum_vec p (map (fun i => gr i w) (map fst l))) = p).
      { apply sum_len. apply Forall_map. apply Forall_map. eapply Forall_impl; [|exact F2]. intros e [J _]. apply (ES _ w w); auto. }
      pose proof (gr_dst p n L mu gr ES HM i z w I Lz Lw) as GD.
      assert (GD' : dst (gr i z) (gr i w) <= L * D) by (eapply Rle_trans; [exact GD|]; apply Rmult_le_compat_l; lra).
      replace (plus_vec (gr i z) (sum_vec p (made l))) with (along (gr i z) (sum_vec p (made l)) (Ropp (Ropp 1))).
      2: { rewrite Ropp_involutive. assert (E : length (sum_vec p (made l)) = length (gr i z)) by congruence. revert E. generalize (sum_vec p (made l)). generalize (gr i z).
           intros u. induction u as [|a u IHu]; intros [|b v] E; try discriminate; cbn; [reflexivity|]. rewrite IHu by (cbn in E; lia). f_equal. lra. }
      replace (plus_vec (gr i w) (sum_vec p (map (fun i => gr i w) (map fst l)))) with (along (gr i w) (sum_vec p (map (fun i => gr i w) (map fst l))) (Ropp (Ropp 1))).
      2: { rewrite Ropp_involutive. assert (E : length (sum_vec p (map (fun i => gr i w) (map fst l))) = length (gr i w)) by congruence. revert E. generalize (sum_vec p (map (fun i => gr i w) (map fst l))). generalize (gr i w).
           intros u. induction u as [|a u IHu]; intros [|b v] E; try discriminate; cbn; [reflexivity|]. rewrite IHu by (cbn in E; lia). f_equal. lra. }
      eapply Rle_trans; [apply dst_move; congruence|]. rewrite Rabs_Ropp, Rabs_R1. lra.
  Qed.
  (** the end of the epoch is the end of a pass in the sense of [mid] *)
  Lemma epoch_mid l : drifted l -> Permutation (map fst l) (seq 0 n) ->
    mid p n L h gr (map fst l) w n (along w (sum_vec p (made l)) (- h)).
  Proof.
    intros D P. assert (K : length l = n) by (pose proof (Permutation_length P) as Q; rewrite map_length, seq_length in Q; exact Q).
    pose proof (all_near l D ltac:(lia)) as AN.
    assert (F2 : Forall (fun e => (fst e < n)%nat /\ length (snd e) = p) l) by (eapply Forall_impl; [|exact AN]; cbn beta; tauto).
    assert (L3 : length (sum_vec p (made l)) = p) by (apply sum_len, made_len, F2).
    assert (FN : firstn n (map fst l) = map fst l) by (apply firstn_all2; rewrite map_length; lia).
    assert (AH : Rabs (- h) = h) by (rewrite Rabs_Ropp, Rabs_right; lra).
    unfold mid. rewrite FN. split; [exact Lw|]. split; [rewrite along_length; congruence|]. split; [lia|]. split.
    - rewrite along_dst by congruence. rewrite AH. rewrite Rmult_assoc. apply Rmult_le_compat_l; [lra|].
      eapply Rle_trans; [apply nrm_sum, made_len, F2|]. rewrite <- K. apply spent_bound; [exact D|lia].
    - assert (L4 : length (sum_vec p (map (fun i => gr i w) (map fst l))) = p).
      { apply sum_len. apply Forall_map. apply Forall_map. eapply Forall_impl; [|exact F2]. intros e [J _]. apply (ES _ w w); auto. }
      eapply Rle_trans; [apply dst_move; congruence|].
      assert (Z : dst w w = 0). { pose proof (along_dst w (repeat 0 (length w)) 0 (repeat_length _ _)) as A. rewrite along_zero, Rabs_R0, Rmult_0_l in A. exact A. }
      rewrite Z, (Rabs_right h) by lra. rewrite Rplus_0_l.
      assert (D0 : 0 <= 2 * (h * T l)) by (pose proof (tot_nonneg gr w (map fst l)); assert (0 <= h * T l) by (apply Rmult_le_pos; lra); lra).
      pose proof (made_dst _ D0 l AN) as MD. rewrite K in MD.
      replace (h * L * INR n * (2 * (h * T l))) with (h * (INR n * (L * (2 * (h * T l))))) by ring. apply Rmult_le_compat_l; lra.
  Qed.
End Epoch.
