(** Consequences: the sort on a table, the first front, uniqueness. *)
From Coq Require Import List Arith Bool ZArith Lia Permutation.
From Verif.Base Require Import Num Vec Size.
From Verif.Model Require Import SA Pareto.
From Verif.Spec Require Import ParetoSpec.
From Verif.Proof Require Import SAProof ParetoProof.
Import ListNotations.

Lemma fnds_table : forall (N : Num), OrdLaws N -> forall m n (objs : list (list N)) fuel ranks,
  table m objs -> n <= length objs -> n <= length ranks -> n < fuel ->
  exists fronts ranks', fnds n (dom_at objs) fuel ranks = Some (fronts, ranks') /\
    pareto_fronts n (beats objs) fronts /\
    length ranks' = length ranks /\
    (forall k i, in_front fronts k i -> nth_error ranks' i = Some k) /\
    (forall i, n <= i -> nth_error ranks' i = nth_error ranks i).
Proof.
  intros N OL m n objs fuel ranks TB HO HR HF.
  assert (RW : forall i, i < n -> length (nth i objs []) = m /\ no_nans (nth i objs [])).
  { intros i Hi. apply TB. apply nth_In. lia. }
  destruct (fnds_ok n (dom_at objs)) with (fuel := fuel) (ranks := ranks) as (fronts & ranks' & E & PF & RK).
  - intros p Hp. apply dominates_irrefl. exact OL.
  - intros p q r Hp Hq Hr. destruct (RW p Hp), (RW q Hq), (RW r Hr). apply dominates_trans; auto; congruence.
  - exact HF.
  - exact HR.
  - exists fronts, ranks'. split; [exact E|]. split; [|exact RK].
    assert (BE : forall p q, p < n -> q < n -> (dom_at objs p q = true <-> beats objs p q)).
    { intros p q Hp Hq. eapply dom_at_iff; eauto; lia. }
    assert (FL : forall k i, in_front fronts k i -> i < n).
    { intros k i Hk. apply (pf_all _ _ _ PF). apply in_front_concat. eauto. }
    destruct PF as [pa po ps pb pn]. constructor; auto.
    + intros k i j Hk Hj B. apply (pb k i j Hk Hj). apply BE; [exact Hj|eapply FL; eauto|exact B].
    + intros k i Hk. destruct (pn k i Hk) as (j & Hj & B). exists j. split; [exact Hj|].
      apply BE; [eapply FL; eauto|eapply FL; eauto|exact B].
Qed.

Lemma front_lt : forall n beats fronts k i, pareto_fronts n beats fronts -> in_front fronts k i -> i < n.
Proof. intros n b f k i PF H. apply (pf_all _ _ _ PF). apply in_front_concat. eauto. Qed.

Lemma front_ex : forall n beats fronts i, pareto_fronts n beats fronts -> i < n -> exists k, in_front fronts k i.
Proof. intros n b f i PF H. apply in_front_concat. apply (pf_all _ _ _ PF). exact H. Qed.

Lemma front_zero : forall n beats fronts, 0 < n -> pareto_fronts n beats fronts ->
  forall i, in_front fronts 0 i <-> i < n /\ forall j, j < n -> ~ beats j i.
Proof.
  intros n b f Hn PF i. split.
  - intros H. split; [eapply front_lt; eauto|]. intros j Hj B.
    destruct (pf_before _ _ _ PF 0 i j H Hj B) as (k & L & _). lia.
  - intros [Hi NB]. destruct (front_ex _ _ _ _ PF Hi) as [[|k] Hk]; [exact Hk|].
    destruct (pf_next _ _ _ PF k i Hk) as (j & Hj & B). destruct (NB j); [eapply front_lt; eauto|exact B].
Qed.

Lemma nodup_index : forall (fronts : list (list nat)) k k' i, NoDup (concat fronts) ->
  in_front fronts k i -> in_front fronts k' i -> k = k'.
Proof.
  induction fronts as [|F fs IH]; intros k k' i ND (A & EA & IA) (B & EB & IB); [destruct k; discriminate|].
  cbn in ND. destruct k as [|k], k' as [|k']; cbn in EA, EB.
  - reflexivity.
  - exfalso. injection EA as <-. apply in_split in IA. destruct IA as (l1 & l2 & ->).
    rewrite <- app_assoc in ND. apply NoDup_remove_2 in ND. apply ND. rewrite !in_app_iff. right. right.
    apply in_concat. exists B. split; [eapply nth_error_In; eauto|exact IB].
  - exfalso. injection EB as <-. apply in_split in IB. destruct IB as (l1 & l2 & ->).
    rewrite <- app_assoc in ND. apply NoDup_remove_2 in ND. apply ND. rewrite !in_app_iff. right. right.
    apply in_concat. exists A. split; [eapply nth_error_In; eauto|exact IA].
  - f_equal. eapply IH; [eapply nodup_app_r; exact ND|exists A; eauto|exists B; eauto].
Qed.

Lemma front_antichain : forall n beats fronts, pareto_fronts n beats fronts ->
  forall k i j, in_front fronts k i -> in_front fronts k j -> ~ beats i j.
Proof.
  intros n b f PF k i j Hi Hj B. destruct (pf_before _ _ _ PF k j i Hj) as (k' & L & Hk').
  - eapply front_lt; eauto.
  - exact B.
  - assert (k = k') by (eapply nodup_index; [exact (pf_once _ _ _ PF)|exact Hi|exact Hk']). lia.
Qed.

Lemma fronts_unique : forall n beats f1 f2, pareto_fronts n beats f1 -> pareto_fronts n beats f2 ->
  forall k i, in_front f1 k i <-> in_front f2 k i.
Proof.
  assert (H : forall n beats f1 f2, pareto_fronts n beats f1 -> pareto_fronts n beats f2 ->
            forall k k' i, in_front f1 k i -> in_front f2 k' i -> k <= k').
  { intros n b f1 f2 P1 P2 k; induction k as [k IH] using lt_wf_ind. intros k' i H1 H2.
    destruct k as [|k]; [lia|].
    destruct (pf_next _ _ _ P1 k i H1) as (j & Hj & B).
    assert (Hjn : j < n) by (eapply front_lt; [exact P1|exact Hj]).
    destruct (pf_before _ _ _ P2 k' i j H2 Hjn B) as (k2 & L & Hk2).
    specialize (IH k ltac:(lia) k2 j Hj Hk2). lia. }
  intros n b f1 f2 P1 P2 k i. split; intros HH.
  - destruct (front_ex _ _ _ i P2 (front_lt _ _ _ _ _ P1 HH)) as [k' Hk'].
    assert (k <= k') by (eapply (H n b f1 f2); eauto). assert (k' <= k) by (eapply (H n b f2 f1); eauto).
    replace k with k' by lia. exact Hk'.
  - destruct (front_ex _ _ _ i P1 (front_lt _ _ _ _ _ P2 HH)) as [k' Hk'].
    assert (k <= k') by (eapply (H n b f2 f1); eauto). assert (k' <= k) by (eapply (H n b f1 f2); eauto).
    replace k with k' by lia. exact Hk'.
Qed.
