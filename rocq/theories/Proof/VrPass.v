(** What the events of SVRG and SARAH say about the gradients used; a pass over the batches adds up to the full gradient. *)
From Coq Require Import List Arith Bool Reals Lra Lia Permutation.
From Verif.Base Require Import Num Vec Instances.
From Verif.Model Require Import Common VarRed.
From Verif.Spec Require Import SgdSpec Gradient ConvergeSpec VarRedSpec SarahSpec VrRateSpec.
From Verif.Proof Require Import NormProof VarRedProof SVRGProof SarahProof SVRGReal VrRate.
Import ListNotations.
Local Open Scope R_scope.

Section Pass.
  Variable mx : R.
  Notation RN := (RNum mx).
  Variables (p : nat) (f : VFun RN) (gr : nat -> list R -> list R) (b : nat).
  Notation n := (vf_num f).
  Notation gF := (avg_grad p n gr).
  Hypothesis SS : shuffled_sum mx p f gr.
  Hypothesis gr_len : forall i x, (i < n)%nat -> length x = p -> length (gr i x) = p.
  Hypothesis Hn : (0 < n)%nat.
  Lemma part_nth : forall (l : list nat) i c, (i + c <= length l)%nat -> firstn c (skipn i l) = map (fun k => nth k l 0%nat) (seq i c).
  Proof.
    intros l i c. revert i. induction c as [|c IH]; intros i H; [apply firstn_O|].
    cbn [seq map]. rewrite <- IH by lia. clear IH. revert i H. induction l as [|a l IH]; intros i H; [cbn in H; lia|].
    destruct i as [|i]; [reflexivity|]. cbn [skipn nth]. rewrite IH by (cbn in H; lia). reflexivity.
  Qed.
  Lemma nth_all : forall (l : list nat), map (fun k => nth k l 0%nat) (seq 0 (length l)) = l.
  Proof. intros l. rewrite <- part_nth by lia. cbn. apply firstn_all. Qed.
  Lemma order_lt order : Permutation order (seq 0 n) -> forall k, In k order -> (k < n)%nat.
  Proof. intros P k I. apply (Permutation_in _ P) in I. apply in_seq in I. lia. Qed.
  Lemma order_len order : Permutation order (seq 0 n) -> length order = n.
  Proof. intros P. apply Permutation_length in P. rewrite seq_length in P. exact P. Qed.
  Lemma grads_len order x l : Permutation order (seq 0 n) -> length x = p -> (forall k, In k l -> In k order) ->
    Forall (fun u => length u = p) (map (fun i => gr i x) l).
  Proof. intros P E H. apply Forall_map, Forall_forall. intros k I. apply gr_len; [eapply order_lt; eauto|exact E]. Qed.
  Lemma part_in (l : list nat) i c : forall k, In k (firstn c (skipn i l)) -> In k l.
  Proof. intros k I. rewrite <- (firstn_skipn i l). apply in_or_app. right. rewrite <- (firstn_skipn c (skipn i l)). apply in_or_app. left. exact I. Qed.

  Lemma batch_len j x i c : length x = p -> (i + c <= n)%nat -> length (vf_grad f j x i c) = p.
  Proof.
    intros E R1. destruct (SS j) as (order & P & G). rewrite G by assumption. apply sum_len.
    apply (grads_len order); auto. intros k I. eapply part_in; exact I.
  Qed.
  Lemma vadd_plus : forall u v : list R, vadd (N := RN) u v = plus_vec u v.
  Proof. unfold vadd. induction u as [|a u IH]; intros [|c v]; cbn; try reflexivity. f_equal. apply IH. Qed.
  Lemma fold_sum : forall (l : list (list R)) (u : list R), length u = p -> Forall (fun a => length a = p) l ->
    fold_left (vadd (N := RN)) l u = sum_vec p (u :: l).
  Proof.
    induction l as [|a l IH]; intros u E Fl; cbn.
    - rewrite plus_zero by exact E. reflexivity.
    - pose proof (Forall_inv Fl) as A1. pose proof (Forall_inv_tail Fl) as A2. rewrite IH by (rewrite ?vadd_plus; auto using plus_len). cbn. rewrite vadd_plus. symmetry. apply plus_assoc.
  Qed.
  Lemma sum_parts x order : Permutation order (seq 0 n) -> length x = p -> forall (l : list (nat * nat)), Forall (fun q => fst q + snd q <= n)%nat l ->
    sum_vec p (map (fun q => sum_vec p (map (fun i => gr i x) (firstn (snd q) (skipn (fst q) order)))) l)
    = sum_vec p (map (fun k => gr (nth k order 0%nat) x) (flat_map (fun q => seq (fst q) (snd q)) l)).
  Proof.
    intros P E l. induction l as [|q l IH]; intros Fl; [reflexivity|]. pose proof (Forall_inv Fl) as A. pose proof (Forall_inv_tail Fl) as B. cbn beta in A.
    cbn [map flat_map]. rewrite map_app. rewrite sum_app.
    - rewrite <- IH by exact B. cbn [sum_vec fold_right map]. unfold sum_vec at 1. cbn [fold_right]. f_equal.
      rewrite part_nth by (rewrite (order_len order P); exact A). rewrite map_map. reflexivity.
    - apply Forall_map, Forall_forall. intros k I. apply in_seq in I. apply gr_len; [|exact E].
      apply (order_lt order P), nth_In. rewrite (order_len order P). lia.
    - apply Forall_map, Forall_forall. intros k I. apply in_flat_map in I. destruct I as (q' & I1 & I2). apply in_seq in I2.
      rewrite Forall_forall in B. specialize (B _ I1). apply gr_len; [|exact E].
      apply (order_lt order P), nth_In. rewrite (order_len order P). lia.
  Qed.
  (** the batches of a pass add up to the sum of all the gradients *)
  Lemma pass_full j x (l : list (nat * nat)) (u : list R) (r : list (list R)) : length x = p -> split_of n b l ->
    @map _ (list R) (fun q => vf_grad f j x (fst q) (snd q)) l = u :: r -> over_n (N := RN) n (fold_left (vadd (N := RN)) r u) = gF x.
  Proof.
    intros E S M. pose proof (split_in n b Hn l S) as SI. destruct S as [S1 S2].
    destruct (SS j) as (order & P & G).
    assert (FL : Forall (fun a : list R => length a = p) (u :: r)).
    { rewrite <- M. apply Forall_map, Forall_forall. intros q I. apply batch_len; [exact E|]. apply SI, I. }
    pose proof (Forall_inv FL) as A1. pose proof (Forall_inv_tail FL) as A2. rewrite fold_sum by auto. rewrite <- M.
    replace (@map _ (list R) (fun q => vf_grad f j x (fst q) (snd q)) l) with (map (fun q => sum_vec p (map (fun i => gr i x) (firstn (snd q) (skipn (fst q) order)))) l).
    2:{ apply map_ext_in. intros q I. symmetry. apply G; [exact E|]. apply SI, I. }
    rewrite (sum_parts x order P E) by (apply Forall_forall; intros q I; apply SI, I).
    rewrite S1. unfold avg_grad, over_n. rewrite (nofnat_INR mx). cbn [ndiv RNum].
    rewrite <- (map_map (fun k => nth k order 0%nat) (fun i => gr i x)). pose proof (nth_all order) as NA. rewrite (order_len order P) in NA. rewrite NA.
    f_equal. apply sum_perm; [apply Permutation_map, P|]. apply (grads_len order); auto.
  Qed.

End Pass.

Section Events.
  Variable mx : R.
  Notation RN := (RNum mx).
  Notation trace := (list (vev RN)).
  Variables (f : VFun RN) (b : nat).
  Notation n := (vf_num f).
  Lemma last_shift {A} : forall (l : list A) a c, last (c :: l) a = last l c.
  Proof. induction l as [|d l IH]; intros a c; [reflexivity|]. change (last (c :: d :: l) a) with (last (d :: l) a). rewrite !IH. reflexivity. Qed.

  (** *** Events *)
  Definition good (j : nat) (tr : trace) : Prop := compj mx f j tr /\ Forall (in_range n b) tr.
  Lemma good_app a c j : good j (a ++ c) -> good j a /\ good (j + shuffles a) c.
  Proof. intros [C I]. apply compj_app in C. apply Forall_app in I. unfold good. tauto. Qed.
  Lemma reported_app (a c : trace) : reported mx (a ++ c) = (reported mx a + reported mx c)%nat.
  Proof. unfold reported. rewrite filter_app, app_length. reflexivity. Qed.
  Lemma rep_evs x l : reported mx (evs_of (N := RN) x l) = 0%nat.
  Proof. induction l; [reflexivity|exact IHl]. Qed.
  Lemma rep_grs x l : reported mx (grs_of (N := RN) x l) = 0%nat.
  Proof. induction l; [reflexivity|exact IHl]. Qed.
  Lemma rep_grq x l : reported mx (grq_of (N := RN) x l) = 0%nat.
  Proof. induction l; [reflexivity|exact IHl]. Qed.
  Lemma rep_rest (l : trace) : forallb abandoned l = true -> reported mx l = 0%nat.
  Proof. induction l as [|e l IH]; intros H; [reflexivity|]. cbn in H. apply andb_true_iff in H as [A B]. destruct e; try discriminate; exact (IH B). Qed.

  Lemma good_grs j x l : good j (grs_of (N := RN) x l) -> map (fun q => snd (snd q)) l = map (fun q => vf_grad f j x (fst q) (snd q)) (map fst l).
  Proof.
    induction l as [|q l IH]; intros [C I]; [reflexivity|]. cbn in C. destruct C as (C1 & C2 & C). cbn [map]. inversion I; subst.
    rewrite IH by (split; assumption). f_equal. etransitivity; [exact C2|exact C1].
  Qed.
  Lemma good_grq j x l : good j (grq_of (N := RN) x l) -> map (fun q => fst (snd q)) l = map (fun q => vf_grad f j x (fst q) (snd q)) (map fst l).
  Proof.
    induction l as [|q l IH]; intros [C I]; [reflexivity|]. cbn in C. destruct C as (C1 & C). cbn [map]. inversion I; subst.
    rewrite IH by (split; assumption). f_equal. exact C1.
  Qed.
  Lemma shuf_grs x l : shuffles (grs_of (N := RN) x l) = 0%nat.
  Proof. unfold shuffles. induction l; [reflexivity|exact IHl]. Qed.
  Lemma shuf_evs x l : shuffles (evs_of (N := RN) x l) = 0%nat.
  Proof. unfold shuffles. induction l; [reflexivity|exact IHl]. Qed.

  Lemma within_len inner (l : list (@vstep RN)) : within inner l -> Forall (fun t => 0 < t_c t)%nat l -> (length l <= inner)%nat.
  Proof.
    intros W C. destruct l as [|t0 l0] using rev_ind; [cbn; lia|]. specialize (W l0 t0 eq_refl). apply Forall_app in C as [C _].
    rewrite app_length. cbn. assert (length l0 <= list_sum (map t_c l0))%nat; [|lia]. clear -C.
    induction C as [|t l H C IH]; cbn; [lia|]. unfold list_sum in IH. lia.
  Qed.

  Definition usedg (w : list R) (t : @vstep RN) : Prop :=
    exists j, t_g' t = vf_grad f j (t_x t) (t_f t) (t_c t) /\ t_h' t = vf_grad f j w (t_f t) (t_c t) /\ (0 < t_c t)%nat /\ (t_f t + t_c t <= n)%nat.
  Lemma steps_used (w : list R) e : forall l j, good j (flat_map (step_events (N := RN) w e) l) -> Forall (usedg w) l.
  Proof.
    induction l as [|t l IH]; intros j H; [constructor|]. cbn [flat_map] in H. apply good_app in H as [H1 H2]. constructor; [|exact (IH _ H2)].
    destruct H1 as [C I]. unfold step_events in *. apply compj_app in C as [_ C]. apply Forall_app in I as [_ I].
    cbn in C. destruct C as (C1 & C2 & C3 & C4 & _). inversion I as [|? ? I1 I2]; subst. cbn in I1. destruct I1 as [I1 I3].
    eexists. rewrite C2, C4. split; [exact C1|]. split; [exact C3|]. split; [lia|exact I3].
  Qed.
End Events.
Arguments good {mx} f b.
Arguments usedg {mx} f.
Arguments good_app {mx f b}.
Arguments good_grs {mx f b}.
Arguments good_grq {mx f b}.
Arguments steps_used {mx f b}.
Arguments reported_app {mx}.
Arguments rep_evs {mx}.
Arguments rep_grs {mx}.
Arguments rep_grq {mx}.
Arguments rep_rest {mx}.
Arguments shuf_grs {mx}.
Arguments shuf_evs {mx}.
Arguments within_len {mx}.
