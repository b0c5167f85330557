(** Dominance is the textbook strict order; the sort builds its fronts. *)
From Coq Require Import List Arith Bool ZArith Lia Permutation.
From Verif.Base Require Import Num Vec Size.
From Verif.Model Require Import SA Pareto.
From Verif.Spec Require Import ParetoSpec.
From Verif.Proof Require Import SAProof.
Import ListNotations.

Lemma nodup_app_r : forall {A} (l m : list A), NoDup (l ++ m) -> NoDup m.
Proof. induction l as [|a l IH]; intros m H; [exact H|]. cbn in H. inversion H; subst. auto. Qed.
Lemma nodup_app_l : forall {A} (l m : list A), NoDup (l ++ m) -> NoDup l.
Proof.
  induction l as [|a l IH]; intros m H; [constructor|]. cbn in H. inversion H; subst.
  constructor; [|eauto]. intros I. apply H2. apply in_or_app. left; exact I.
Qed.
Lemma nodup_app : forall {A} (l m : list A), NoDup l -> NoDup m -> (forall x, In x l -> ~ In x m) -> NoDup (l ++ m).
Proof.
  induction l as [|a l IH]; intros m H1 H2 H3; [exact H2|]. inversion H1; subst. cbn. constructor.
  - intros I. apply in_app_or in I. destruct I as [I|I]; [contradiction|]. apply (H3 a); [left; reflexivity|exact I].
  - apply IH; auto. intros x Hx. apply H3. right; exact Hx.
Qed.

Section Dom.
  Context {N : Num}.
  Variable OL : OrdLaws N.

  Lemma dom_fold : forall (l : list (N * N)) a b,
    fold_left dom_step l (a, b) =
      (a && forallb (fun x => negb (nlt (snd x) (fst x))) l,
       b || existsb (fun x => negb (nlt (snd x) (fst x)) && nlt (fst x) (snd x)) l).
  Proof.
    intros l; induction l as [|[u v] l IH]; intros a b; cbn [fold_left forallb existsb].
    - rewrite andb_true_r, orb_false_r. reflexivity.
    - unfold dom_step at 2. cbn [fst snd]. destruct (nlt v u) eqn:E.
      + rewrite IH. cbn. rewrite andb_false_r. reflexivity.
      + destruct (nlt u v); rewrite IH; cbn; rewrite ?orb_true_r; reflexivity.
  Qed.

  Lemma lt_asym : forall x y : N, nlt x y = true -> nlt y x = false.
  Proof. intros x y H. apply (ol_le_not_lt _ OL). apply (ol_lt_le _ OL). exact H. Qed.

  Lemma dominates_iff_pairs : forall P Q : list N,
    dominates P Q = true <->
    (forall a b, In (a, b) (combine P Q) -> nlt b a = false) /\
    (exists a b, In (a, b) (combine P Q) /\ nlt a b = true).
  Proof.
    intros P Q. unfold dominates. rewrite dom_fold. cbn [andb orb].
    rewrite andb_true_iff, forallb_forall, existsb_exists. split.
    - intros [H1 [[a b] [Hi H2]]]. split.
      + intros u v Huv. specialize (H1 _ Huv). cbn in H1. apply negb_true_iff in H1. exact H1.
      + exists a, b. apply andb_true_iff in H2. tauto.
    - intros [H1 (a & b & Hi & H2)]. split.
      + intros [u v] Huv. cbn. rewrite (H1 _ _ Huv). reflexivity.
      + exists (a, b). split; [exact Hi|]. cbn. rewrite H2, (lt_asym _ _ H2). reflexivity.
  Qed.

  Lemma nth_combine : forall (P Q : list N) i a b,
    nth_error (combine P Q) i = Some (a, b) <-> nth_error P i = Some a /\ nth_error Q i = Some b.
  Proof.
    induction P as [|p P IH]; intros [|q Q] [|i] a b; cbn; try (split; intros; intuition congruence).
    apply IH.
  Qed.

  Lemma in_combine_iff : forall (P Q : list N) a b,
    In (a, b) (combine P Q) <-> exists i, nth_error P i = Some a /\ nth_error Q i = Some b.
  Proof.
    intros P Q a b. split.
    - intros H. apply In_nth_error in H. destruct H as [i H]. exists i. apply nth_combine. exact H.
    - intros [i H]. apply nth_combine in H. eapply nth_error_In; exact H.
  Qed.

  (** even with NaNs *)
  Lemma dominates_irrefl : forall P : list N, dominates P P = false.
  Proof.
    intros P. destruct (dominates P P) eqn:E; [|reflexivity].
    apply dominates_iff_pairs in E. destruct E as [_ (a & b & H & L)].
    apply in_combine_iff in H. destruct H as (i & H1 & H2).
    rewrite H1 in H2. injection H2 as <-. rewrite (ol_irrefl _ OL) in L. discriminate.
  Qed.

  Lemma dominates_asym : forall P Q : list N, dominates P Q = true -> dominates Q P = false.
  Proof.
    intros P Q H. destruct (dominates Q P) eqn:E; [|reflexivity].
    apply dominates_iff_pairs in H, E. destruct H as [_ (a & b & Hi & L)]. destruct E as [G _].
    apply in_combine_iff in Hi. destruct Hi as (i & H1 & H2).
    rewrite (G b a) in L; [discriminate|]. apply in_combine_iff. eauto.
  Qed.

  Lemma dominates_spec : forall P Q : list N, no_nans P -> no_nans Q ->
    dominates P Q = true <-> Dominates P Q.
  Proof.
    intros P Q NP NQ. rewrite dominates_iff_pairs. unfold Dominates, nowhere_worse, somewhere_better. split.
    - intros [H1 (a & b & Hi & L)]. split.
      + intros i u v HP HQ. apply (ol_total _ OL).
        * apply NQ. eapply nth_error_In; eauto.
        * apply NP. eapply nth_error_In; eauto.
        * apply H1. apply in_combine_iff. eauto.
      + apply in_combine_iff in Hi. destruct Hi as (i & A & B). exists i, a, b. auto.
    - intros [H1 (i & a & b & A & B & L)]. split.
      + intros u v Huv. apply in_combine_iff in Huv. destruct Huv as (j & C & D).
        apply (ol_le_not_lt _ OL). eapply H1; eauto.
      + exists a, b. split; [|exact L]. apply in_combine_iff. eauto.
  Qed.

  Lemma dominates_trans : forall P Q R : list N,
    length P = length Q -> length Q = length R ->
    no_nans P -> no_nans Q -> no_nans R ->
    dominates P Q = true -> dominates Q R = true -> dominates P R = true.
  Proof.
    intros P Q R L1 L2 NP NQ NR H1 H2.
    apply dominates_spec in H1; auto. apply dominates_spec in H2; auto. apply dominates_spec; auto.
    destruct H1 as [W1 (i & a & b & A & B & L)]. destruct H2 as [W2 _]. split.
    - intros j x z X Z. destruct (nth_error Q j) as [y|] eqn:Y.
      + eapply (ol_le_trans _ OL); [eapply W1; eauto | eapply W2; eauto].
      + apply nth_error_None in Y. assert (j < length P) by (apply nth_error_Some; congruence). lia.
    - destruct (nth_error R i) as [z|] eqn:Z.
      + exists i, a, z. split; [exact A|]. split; [exact Z|].
        eapply (ol_lt_le_trans _ OL); [exact L|]. eapply W2; eauto.
      + apply nth_error_None in Z. assert (i < length Q) by (apply nth_error_Some; congruence). lia.
  Qed.

  Lemma dom_at_iff : forall m (objs : list (list N)) p q, table m objs ->
    p < length objs -> q < length objs ->
    dom_at objs p q = true <-> beats objs p q.
  Proof.
    intros m objs p q TB Hp Hq. unfold dom_at, beats.
    destruct (nth_error objs p) as [P|] eqn:EP; [|apply nth_error_None in EP; lia].
    destruct (nth_error objs q) as [Q|] eqn:EQ; [|apply nth_error_None in EQ; lia].
    rewrite (nth_error_nth _ _ _ EP), (nth_error_nth _ _ _ EQ).
    rewrite dominates_spec.
    - split.
      + intros D. eauto 6.
      + intros (P' & Q' & E1 & E2 & D). congruence.
    - apply (TB P). eapply nth_error_In; eauto.
    - apply (TB Q). eapply nth_error_In; eauto.
  Qed.
End Dom.

Section Sort.
  Variable n : nat.
  Variable dom : nat -> nat -> bool.
  Hypothesis irr : forall p, p < n -> dom p p = false.
  Hypothesis trn : forall p q r, p < n -> q < n -> r < n ->
    dom p q = true -> dom q r = true -> dom p r = true.

  Lemma asy : forall p q, p < n -> q < n -> dom p q = true -> dom q p = false.
  Proof.
    intros p q Hp Hq H. destruct (dom q p) eqn:E; [|reflexivity].
    rewrite <- (irr p Hp). symmetry. eapply trn; [| |exact Hp|exact H|exact E]; assumption.
  Qed.

  Lemma compare_fold : forall p l s c,
    fold_left (fun st q => if dom p q then (fst st ++ [q], snd st)
                           else if dom q p then (fst st, S (snd st)) else st) l (s, c) =
    (s ++ filter (dom p) l, c + length (filter (fun q => negb (dom p q) && dom q p) l)).
  Proof.
    intros p l; induction l as [|q l IH]; intros s c; cbn [fold_left filter].
    - rewrite app_nil_r, Nat.add_0_r. reflexivity.
    - destruct (dom p q); cbn [fst snd negb andb].
      + rewrite IH, <- app_assoc. reflexivity.
      + destruct (dom q p); cbn [fst snd]; rewrite IH; [|reflexivity]. cbn [length]. f_equal. lia.
  Qed.

  Definition mem (p : nat) (l : list nat) : bool := existsb (Nat.eqb p) l.
  Lemma mem_In : forall p l, mem p l = true <-> In p l.
  Proof.
    intros p l. unfold mem. rewrite existsb_exists. split.
    - intros (x & H & E). apply Nat.eqb_eq in E. subst. exact H.
    - intros H. exists p. split; [exact H|]. apply Nat.eqb_refl.
  Qed.

  (** how many members outside [done] dominate q *)
  Definition cnt (done : list nat) (q : nat) : nat :=
    length (filter (fun p => dom p q && negb (mem p done)) (seq 0 n)).

  Lemma compare_all_eq : forall p, p < n ->
    compare_all n dom p = (filter (dom p) (seq 0 n), cnt [] p).
  Proof.
    intros p Hp. unfold compare_all. rewrite compare_fold. cbn [app]. rewrite Nat.add_0_l. f_equal. unfold cnt.
    f_equal. apply filter_ext_in. intros q Hq. apply in_seq in Hq. cbn. rewrite andb_true_r.
    destruct (dom p q) eqn:E; [|reflexivity]. cbn. symmetry. apply asy; [assumption|lia|assumption].
  Qed.

  Lemma filter_len0 : forall {A} (f : A -> bool) l, length (filter f l) = 0 <-> (forall x, In x l -> f x = false).
  Proof.
    intros A f l. split.
    - intros H x Hx. destruct (f x) eqn:E; [|reflexivity].
      assert (In x (filter f l)) by (apply filter_In; auto). destruct (filter f l); [contradiction|discriminate].
    - intros H. destruct (filter f l) as [|y r] eqn:E; [reflexivity|].
      assert (In y (filter f l)) by (rewrite E; left; reflexivity). apply filter_In in H0.
      rewrite (H y) in H0 by tauto. destruct H0; discriminate.
  Qed.

  Lemma cnt_0 : forall done q, cnt done q = 0 <-> (forall p, p < n -> dom p q = true -> In p done).
  Proof.
    intros done q. unfold cnt. rewrite filter_len0. split.
    - intros H p Hp D. specialize (H p). rewrite D in H. cbn in H.
      apply mem_In. apply negb_false_iff. apply H. apply in_seq. lia.
    - intros H p Hp. apply in_seq in Hp. destruct (dom p q) eqn:D; [|reflexivity]. cbn.
      apply negb_false_iff. apply mem_In. apply H; [lia|exact D].
  Qed.

  (** removing the members of [front] *)
  Lemma cnt_front : forall done front q,
    NoDup front -> (forall p, In p front -> p < n /\ ~ In p done) ->
    cnt done q = cnt (done ++ front) q + length (filter (fun p => dom p q) front).
  Proof.
    intros done front q ND HF. unfold cnt.
    assert (E : length (filter (fun p => dom p q) front) =
                length (filter (fun p => dom p q && mem p front) (seq 0 n))).
    { apply Permutation_length. apply NoDup_Permutation.
      - apply NoDup_filter; exact ND.
      - apply NoDup_filter, seq_NoDup.
      - intros x. rewrite !filter_In, andb_true_iff, mem_In, in_seq. split.
        + intros [H1 H2]. destruct (HF _ H1). repeat split; auto; lia.
        + tauto. }
    rewrite E. clear E.
    induction (seq 0 n) as [|p l IH]; [reflexivity|]. cbn [filter].
    destruct (dom p q); cbn [andb]; [|exact IH].
    unfold mem in *. rewrite existsb_app.
    destruct (existsb (Nat.eqb p) done) eqn:A; cbn [negb orb].
    - destruct (existsb (Nat.eqb p) front) eqn:B; cbn [negb]; [|exact IH].
      apply mem_In in A, B. destruct (HF _ B). contradiction.
    - destruct (existsb (Nat.eqb p) front) eqn:B; cbn [negb length]; rewrite IH; lia.
  Qed.

  (** ** one front *)
  Definition occ (q : nat) (l : list nat) : nat := count_occ Nat.eq_dec l q.

  Lemma visits : forall i l s,
    (forall q, In q l -> q < length (f_ranks s)) ->
    (forall q, occ q l <= f_count s q) ->
    (forall q, In q l -> ~ In q (f_front s)) ->
    exists new,
      f_front (fold_left (visit i) l s) = f_front s ++ new /\
      NoDup new /\
      (forall q, In q new <-> 0 < occ q l /\ f_count s q = occ q l) /\
      (forall q, f_count (fold_left (visit i) l s) q = f_count s q - occ q l) /\
      length (f_ranks (fold_left (visit i) l s)) = length (f_ranks s) /\
      (forall q, In q new -> nth_error (f_ranks (fold_left (visit i) l s)) q = Some (i + 1)) /\
      (forall q, ~ In q new -> nth_error (f_ranks (fold_left (visit i) l s)) q = nth_error (f_ranks s) q).
  Proof.
    intros i l; induction l as [|q l IH]; intros s HL HC HF.
    - exists []. cbn. rewrite app_nil_r. repeat split; try tauto; try lia. constructor.
    - cbn [fold_left].
      assert (C1 : 1 <= f_count s q).
      { specialize (HC q). unfold occ in HC. cbn in HC. destruct (Nat.eq_dec q q); [lia|congruence]. }
      assert (OC : forall r, occ r (q :: l) = occ r l + (if Nat.eqb r q then 1 else 0)).
      { intros r. unfold occ. cbn. destruct (Nat.eq_dec q r), (Nat.eqb_spec r q); subst; try congruence; lia. }
      assert (DC : dec (f_count s q) = f_count s q - 1) by (destruct (f_count s q); [lia|cbn; lia]).
      unfold visit at 2 4 6 8 10. rewrite DC. cbn [f_front f_count f_ranks].
      set (c' := f_count s q - 1).
      assert (UC : forall r, upd (f_count s) q c' r = f_count s r - (if Nat.eqb r q then 1 else 0)).
      { intros r. unfold upd, c'. destruct (Nat.eqb_spec r q); subst; lia. }
      destruct (Nat.eqb_spec c' 0) as [Z|NZ].
      + (* q reaches zero: it is not visited again *)
        assert (O0 : occ q l = 0).
        { specialize (HC q). rewrite OC, Nat.eqb_refl in HC. unfold c' in Z. lia. }
        assert (NI : ~ In q l).
        { intros I. apply (count_occ_In Nat.eq_dec) in I. unfold occ in O0. lia. }
        match goal with |- context [fold_left (visit i) l ?s1] => set (s' := s1) end.
        destruct (IH s') as (new & E1 & E2 & E3 & E4 & E5 & E6 & E7).
        { intros r Hr. cbn. rewrite set_nth_length. apply HL. right; exact Hr. }
        { intros r. cbn. rewrite UC. specialize (HC r). rewrite OC in HC. lia. }
        { intros r Hr. cbn. rewrite in_app_iff. intros [H|[H|[]]].
          - eapply HF; [right; exact Hr|exact H].
          - subst. contradiction. }
        exists (q :: new).
        assert (NN : ~ In q new).
        { intros I. apply E3 in I. lia. }
        split; [rewrite E1; cbn; rewrite <- app_assoc; reflexivity|].
        split; [constructor; assumption|].
        split.
        { intros r. cbn [In]. rewrite E3, OC. cbn [f_count s']. rewrite UC.
          destruct (Nat.eqb_spec r q).
          - subst. unfold c' in Z. split; intros; [lia|left; reflexivity].
          - rewrite Nat.add_0_r, Nat.sub_0_r. split; [intros [H|H]; [congruence|exact H]|auto]. }
        split.
        { intros r. rewrite E4, OC. cbn [f_count s']. rewrite UC. lia. }
        split; [rewrite E5; cbn; apply set_nth_length|].
        split.
        { intros r [H|H].
          - subst. rewrite E7 by exact NN. cbn. apply set_nth_same. apply HL. left; reflexivity.
          - apply E6. exact H. }
        { intros r Hr. rewrite E7 by (intros I; apply Hr; right; exact I). cbn.
          apply set_nth_other. intros ->. apply Hr. left; reflexivity. }
      + match goal with |- context [fold_left (visit i) l ?s1] => set (s' := s1) end.
        destruct (IH s') as (new & E1 & E2 & E3 & E4 & E5 & E6 & E7).
        { intros r Hr. apply HL. right; exact Hr. }
        { intros r. cbn. rewrite UC. specialize (HC r). rewrite OC in HC. lia. }
        { intros r Hr. cbn. apply HF. right; exact Hr. }
        exists new. split; [exact E1|]. split; [exact E2|]. split.
        { intros r. rewrite E3, OC. cbn [f_count s']. rewrite UC. destruct (Nat.eqb_spec r q); [|lia].
          subst. unfold c' in NZ. specialize (HC q). rewrite OC, Nat.eqb_refl in HC. lia. }
        split; [|split; [exact E5|split; [exact E6|exact E7]]].
        intros r. rewrite E4, OC. cbn [f_count s']. rewrite UC. lia.
  Qed.

  Lemma fold_flat : forall {A B C} (f : C -> B -> C) (g : A -> list B) l (s : C),
    fold_left (fun s a => fold_left f (g a) s) l s = fold_left f (flat_map g l) s.
  Proof.
    intros A B C f g l; induction l as [|a l IH]; intros s; [reflexivity|].
    cbn. rewrite fold_left_app. apply IH.
  Qed.

  Lemma occ_dominated : forall q front, q < n -> (forall p, In p front -> p < n) ->
    occ q (flat_map (fun p => fst (compare_all n dom p)) front) = length (filter (fun p => dom p q) front).
  Proof.
    intros q front Hq; induction front as [|p front IH]; intros HF; [reflexivity|].
    cbn [flat_map filter]. unfold occ in *. rewrite count_occ_app, IH by (intros; apply HF; right; assumption).
    rewrite compare_all_eq by (apply HF; left; reflexivity). cbn [fst].
    assert (ND : NoDup (filter (dom p) (seq 0 n))) by (apply NoDup_filter, seq_NoDup).
    destruct (dom p q) eqn:D.
    - assert (In q (filter (dom p) (seq 0 n))) by (apply filter_In; split; [apply in_seq; lia|exact D]).
      assert (C1 : count_occ Nat.eq_dec (filter (dom p) (seq 0 n)) q = 1).
      { apply (NoDup_count_occ' Nat.eq_dec); assumption. }
      rewrite C1. reflexivity.
    - assert (C0 : count_occ Nat.eq_dec (filter (dom p) (seq 0 n)) q = 0).
      { apply count_occ_not_In. intros I. apply filter_In in I. destruct I; congruence. }
      rewrite C0. reflexivity.
  Qed.

  (** ** the loop invariant *)
  Definition ranks_ok (ranks0 ranks : list nat) (fronts : list (list nat)) : Prop :=
    length ranks = length ranks0 /\
    (forall k i, in_front fronts k i -> nth_error ranks i = Some k) /\
    (forall i, n <= i -> nth_error ranks i = nth_error ranks0 i).

  Record inv (ranks0 : list nat) (dn : list (list nat)) (front : list nat) (c : nat -> nat) (ranks : list nat) : Prop := {
    i_nd : NoDup (concat dn ++ front);
    i_in : forall q, In q (concat dn ++ front) -> q < n;
    i_c : forall q, q < n -> c q = cnt (concat dn) q;
    i_z : forall q, q < n -> (In q (concat dn ++ front) <-> cnt (concat dn) q = 0);
    i_s : forall F, In F dn -> F <> [];
    i_b : forall k i j, in_front (dn ++ [front]) k i -> j < n -> dom j i = true ->
            exists k', k' < k /\ in_front (dn ++ [front]) k' j;
    i_n : forall k i, in_front (dn ++ [front]) (S k) i ->
            exists j, in_front (dn ++ [front]) k j /\ dom j i = true;
    i_r : ranks_ok ranks0 ranks (dn ++ [front])
  }.

  Lemma in_front_concat : forall fs i, In i (concat fs) <-> exists k, in_front fs k i.
  Proof.
    intros fs i. rewrite in_concat. split.
    - intros (F & H1 & H2). apply In_nth_error in H1. destruct H1 as [k H1]. exists k, F. auto.
    - intros (k & F & H1 & H2). exists F. split; [eapply nth_error_In; eauto|exact H2].
  Qed.

  Lemma in_front_snoc : forall fs F k i,
    in_front (fs ++ [F]) k i <-> in_front fs k i \/ (k = length fs /\ In i F).
  Proof.
    intros fs F k i. unfold in_front. split.
    - intros (G & H1 & H2). destruct (Nat.lt_ge_cases k (length fs)).
      + left. rewrite nth_error_app1 in H1 by assumption. eauto.
      + rewrite nth_error_app2 in H1 by assumption. destruct (k - length fs) as [|d] eqn:E.
        * cbn in H1. injection H1 as <-. right. split; [lia|exact H2].
        * cbn in H1. destruct d; discriminate.
    - intros [(G & H1 & H2)|[-> H]].
      + exists G. split; [|exact H2]. rewrite nth_error_app1; [exact H1|]. apply nth_error_Some. congruence.
      + exists F. split; [|exact H]. rewrite nth_error_app2, Nat.sub_diag by lia. reflexivity.
  Qed.

  Lemma in_front_lt : forall fs k i, in_front fs k i -> k < length fs.
  Proof. intros fs k i (F & H & _). apply nth_error_Some. congruence. Qed.

  Lemma step_inv : forall ranks0 dn front c ranks,
    n <= length ranks0 -> front <> [] -> inv ranks0 dn front c ranks ->
    let s := next_front n dom (length dn) front c ranks in
    inv ranks0 (dn ++ [front]) (f_front s) (f_count s) (f_ranks s).
  Proof.
    intros ranks0 dn front c ranks HR NE I s. destruct I as [nd iin ic iz is_ ib inx [rl [rf ro]]].
    assert (HF : forall p, In p front -> p < n) by (intros p Hp; apply iin; apply in_or_app; right; exact Hp).
    assert (ndf : NoDup front) by (apply nodup_app_r in nd; exact nd).
    assert (dis : forall p, In p front -> ~ In p (concat dn)).
    { intros p Hp Hd. apply in_split in Hd. destruct Hd as (l1 & l2 & E).
      rewrite E in nd. rewrite <- app_assoc in nd. apply NoDup_remove_2 in nd.
      apply nd. rewrite !in_app_iff. right. right. exact Hp. }
    assert (cf : forall q, cnt (concat dn) q = cnt (concat dn ++ front) q + length (filter (fun p => dom p q) front)).
    { intros q. apply cnt_front; [exact ndf|]. intros p Hp. split; auto. }
    set (l := flat_map (fun p => fst (compare_all n dom p)) front).
    assert (Hl : forall q, In q l -> q < n).
    { intros q Hq. unfold l in Hq. apply in_flat_map in Hq. destruct Hq as (p & Hp & Hq).
      rewrite compare_all_eq in Hq by (apply HF; exact Hp). cbn in Hq. apply filter_In in Hq.
      destruct Hq as [Hq _]. apply in_seq in Hq. lia. }
    assert (Ho : forall q, q < n -> occ q l = length (filter (fun p => dom p q) front)).
    { intros q Hq. apply occ_dominated; assumption. }
    destruct (visits (length dn) l {| f_front := []; f_count := c; f_ranks := ranks |})
      as (new & E1 & E2 & E3 & E4 & E5 & E6 & E7).
    { intros q Hq. cbn. rewrite rl. apply Hl in Hq. lia. }
    { intros q. cbn. destruct (Nat.lt_ge_cases q n).
      - rewrite ic, Ho, cf by assumption. lia.
      - replace (occ q l) with 0; [lia|]. symmetry. apply count_occ_not_In. intros Hq. apply Hl in Hq. lia. }
    { intros q _ []. }
    cbn [f_front f_count f_ranks app] in *.
    assert (Es : s = fold_left (visit (length dn)) l {| f_front := []; f_count := c; f_ranks := ranks |}).
    { unfold s, next_front. apply fold_flat. }
    rewrite <- Es in *. clearbody s. rewrite E1.
    assert (cd : concat (dn ++ [front]) = concat dn ++ front) by (rewrite concat_app; cbn; rewrite app_nil_r; reflexivity).
    assert (Hn : forall q, In q new <-> q < n /\ cnt (concat dn ++ front) q = 0 /\ 0 < length (filter (fun p => dom p q) front)).
    { intros q. rewrite E3. split.
      - intros [H1 H2]. assert (q < n) by (apply Hl; apply (count_occ_In Nat.eq_dec); exact H1).
        rewrite ic, cf, Ho in H2 by assumption. rewrite Ho in H1 by assumption. repeat split; lia.
      - intros (H0 & H1 & H2). rewrite ic, cf, Ho by assumption. lia. }
    assert (Hold : forall q, q < n -> In q (concat dn ++ front) -> ~ In q new).
    { intros q Hq Hi Hw. apply iz in Hi; [|exact Hq]. rewrite cf in Hi. apply Hn in Hw. lia. }
    assert (nd' : NoDup ((concat dn ++ front) ++ new)).
    { apply nodup_app.
      - exact nd.
      - exact E2.
      - intros q Hq. apply Hold; [apply iin; exact Hq|exact Hq]. }
    constructor.
    - rewrite cd. exact nd'.
    - intros q. rewrite cd, in_app_iff. intros [H|H]; [apply iin; exact H|]. apply Hn in H. tauto.
    - intros q Hq. rewrite E4, cd, ic, Ho, cf by assumption. lia.
    - intros q Hq. rewrite cd, in_app_iff. split.
      + intros [H|H]; [|apply Hn in H; tauto]. apply iz in H; [|exact Hq]. rewrite cf in H. lia.
      + intros H. destruct (Nat.eq_dec (length (filter (fun p => dom p q) front)) 0) as [Z|Z].
        * left. apply iz; [exact Hq|]. rewrite cf. lia.
        * right. apply Hn. repeat split; [exact Hq|exact H|lia].
    - intros F. rewrite in_app_iff. intros [H|[<-|[]]]; [apply is_; exact H|exact NE].
    - intros k i j. rewrite in_front_snoc. intros [H|[-> H]] Hj D.
      + destruct (ib k i j H Hj D) as (k' & L & H'). exists k'. split; [exact L|].
        apply in_front_snoc. left; exact H'.
      + apply Hn in H. destruct H as (_ & H & _). rewrite cnt_0 in H. specialize (H j Hj D).
        rewrite <- cd in H. apply in_front_concat in H. destruct H as [k' H]. exists k'.
        split; [eapply in_front_lt; exact H|]. apply in_front_snoc. left; exact H.
    - intros k i. rewrite in_front_snoc. intros [H|[Ek H]].
      + destruct (inx k i H) as (j & Hj & D). exists j. split; [|exact D]. apply in_front_snoc. left; exact Hj.
      + rewrite app_length in Ek. cbn in Ek. apply Hn in H. destruct H as (_ & _ & H).
        destruct (filter (fun p => dom p i) front) as [|p r] eqn:Ef; [cbn in H; lia|].
        assert (Hp : In p (filter (fun p => dom p i) front)) by (rewrite Ef; left; reflexivity).
        apply filter_In in Hp. destruct Hp as [Hp D]. exists p. split; [|exact D].
        apply in_front_snoc. left. apply in_front_snoc. right. split; [lia|exact Hp].
    - split; [rewrite E5; exact rl|]. split.
      + intros k i. rewrite in_front_snoc. intros [H|[-> H]].
        * rewrite E7; [apply rf; exact H|].
          assert (Hi : In i (concat dn ++ front)).
          { rewrite <- cd. apply in_front_concat. exists k. exact H. }
          apply Hold; [apply iin; exact Hi|exact Hi].
        * rewrite E6 by exact H. f_equal. rewrite app_length. reflexivity.
      + intros i Hi. rewrite E7; [apply ro; exact Hi|]. intros H. apply Hn in H. lia.
  Qed.

  (** some member of a non-empty set is dominated by none of the others *)
  Lemma minimal : forall l, l <> [] -> (forall p, In p l -> p < n) ->
    exists m, In m l /\ forall p, In p l -> dom p m = false.
  Proof.
    intros l; induction l as [|a l IH]; intros NE HL; [congruence|].
    destruct l as [|b r].
    - exists a. split; [left; reflexivity|]. intros p [<-|[]]. apply irr. apply HL. left; reflexivity.
    - destruct IH as (m & Hm & Hmin); [discriminate|intros p Hp; apply HL; right; exact Hp|].
      assert (La : a < n) by (apply HL; left; reflexivity).
      assert (Lm : m < n) by (apply HL; right; exact Hm).
      destruct (dom a m) eqn:D.
      + exists a. split; [left; reflexivity|]. intros p [<-|Hp]; [apply irr; exact La|].
        destruct (dom p a) eqn:D2; [|reflexivity].
        rewrite <- (Hmin p Hp). symmetry. eapply trn; [| | |exact D2|exact D]; auto.
        apply HL; right; exact Hp.
      + exists m. split; [right; exact Hm|]. intros p [<-|Hp]; [exact D|]. apply Hmin; exact Hp.
  Qed.

  Lemma all_done : forall ranks0 dn c ranks, inv ranks0 dn [] c ranks ->
    forall q, q < n -> In q (concat dn).
  Proof.
    intros ranks0 dn c ranks I q Hq. destruct I as [nd iin ic iz _ _ _ _].
    rewrite app_nil_r in *.
    destruct (in_dec Nat.eq_dec q (concat dn)) as [H|H]; [exact H|]. exfalso.
    destruct (minimal (filter (fun p => negb (mem p (concat dn))) (seq 0 n))) as (m & Hm & Hmin).
    - intros E. assert (X : In q (filter (fun p => negb (mem p (concat dn))) (seq 0 n))).
      { apply filter_In. split; [apply in_seq; lia|]. apply negb_true_iff.
        destruct (mem q (concat dn)) eqn:M; [|reflexivity]. apply mem_In in M. contradiction. }
      rewrite E in X. exact X.
    - intros p Hp. apply filter_In in Hp. destruct Hp as [Hp _]. apply in_seq in Hp. lia.
    - apply filter_In in Hm. destruct Hm as [Hm M]. apply in_seq in Hm.
      apply negb_true_iff in M. assert (NI : ~ In m (concat dn)) by (intros X; apply mem_In in X; congruence).
      apply NI. apply iz; [lia|]. apply cnt_0. intros p Hp D.
      destruct (in_dec Nat.eq_dec p (concat dn)) as [X|X]; [exact X|]. exfalso.
      rewrite Hmin in D; [discriminate|]. apply filter_In. split; [apply in_seq; lia|].
      apply negb_true_iff. destruct (mem p (concat dn)) eqn:Mp; [|reflexivity].
      apply mem_In in Mp. contradiction.
  Qed.

  Lemma loop_ok : forall fuel ranks0 dn front c ranks,
    n <= length ranks0 -> inv ranks0 dn front c ranks ->
    n < fuel + length dn -> length dn <= length (concat dn) ->
    exists fronts ranks', fnds_loop n dom fuel (length dn) (dn ++ [front]) c ranks = Some (fronts, ranks') /\
      pareto_fronts n (fun p q => dom p q = true) fronts /\ ranks_ok ranks0 ranks' fronts.
  Proof.
    intros fuel; induction fuel as [|fuel IH]; intros ranks0 dn front c ranks HR I HFu HL.
    - exfalso. assert (length (concat dn) <= n).
      { rewrite <- (seq_length n 0). apply NoDup_incl_length.
        - destruct I as [nd _ _ _ _ _ _ _]. apply nodup_app_l in nd. exact nd.
        - intros q Hq. apply in_seq. destruct I as [_ iin _ _ _ _ _ _].
          specialize (iin q). rewrite in_app_iff in iin. specialize (iin (or_introl Hq)). lia. }
      lia.
    - cbn [fnds_loop]. rewrite app_nth2, Nat.sub_diag by lia. cbn [nth].
      destruct front as [|a r].
      + rewrite removelast_last. exists dn, ranks. split; [reflexivity|].
        assert (AD := all_done _ _ _ _ I). destruct I as [nd iin ic iz is_ ib inx [rl [rf ro]]].
        rewrite app_nil_r in *. split.
        * constructor; auto.
          -- intros i. split; [apply iin|apply AD].
          -- intros k i j H Hj D. destruct (ib k i j) as (k' & L & H'); auto.
             { apply in_front_snoc. left; exact H. }
             exists k'. split; [exact L|]. apply in_front_snoc in H'. destruct H' as [H'|[_ []]]. exact H'.
          -- intros k i H. destruct (inx k i) as (j & H' & D); auto.
             { apply in_front_snoc. left; exact H. }
             exists j. split; [|exact D]. apply in_front_snoc in H'. destruct H' as [H'|[_ []]]. exact H'.
        * split; [exact rl|]. split; [|exact ro]. intros k i H. apply rf. apply in_front_snoc. left; exact H.
      + rewrite <- app_assoc. rewrite (app_assoc dn [a :: r] _).
        replace (length dn + 1) with (length (dn ++ [a :: r])) by (rewrite app_length; reflexivity).
        apply IH.
        * exact HR.
        * apply step_inv; [exact HR|discriminate|exact I].
        * rewrite app_length. cbn. lia.
        * rewrite concat_app, !app_length. cbn. lia.
  Qed.

  Lemma first_pass_eq : forall (ranks l : list nat) s0,
    (forall p, In p l -> p < n /\ p < length ranks) -> length (f_ranks s0) = length ranks -> NoDup l ->
    let s := fold_left (first_visit n dom) l s0 in
    f_front s = f_front s0 ++ filter (fun p => Nat.eqb (cnt [] p) 0) l /\
    (forall q, f_count s q = if mem q l then cnt [] q else f_count s0 q) /\
    length (f_ranks s) = length ranks /\
    (forall q, nth_error (f_ranks s) q = if mem q l && Nat.eqb (cnt [] q) 0 then Some 0 else nth_error (f_ranks s0) q).
  Proof.
    intros ranks l; induction l as [|p l IH]; intros s0 HL HR ND; cbn [fold_left].
    - cbn. rewrite app_nil_r. auto.
    - destruct (HL p (or_introl eq_refl)) as [Hp Hp'].
      unfold first_visit at 2 4 6 8. rewrite (compare_all_eq p Hp). cbn [snd f_front f_count f_ranks].
      inversion ND as [|? ? Np ND']; subst.
      assert (Mp : mem p l = false).
      { destruct (mem p l) eqn:M; [|reflexivity]. apply mem_In in M. contradiction. }
      match goal with |- context [fold_left ?f l ?s1] => set (s' := s1) end.
      destruct (IH s') as (E1 & E2 & E3 & E4).
      { intros q Hq. apply HL. right; exact Hq. }
      { unfold s'. destruct (Nat.eqb (cnt [] p) 0); cbn; rewrite ?set_nth_length; exact HR. }
      { exact ND'. }
      split.
      { rewrite E1. unfold s'. cbn [filter]. destruct (Nat.eqb (cnt [] p) 0); cbn [f_front]; rewrite <- ?app_assoc; reflexivity. }
      split.
      { intros q. rewrite E2. unfold mem. cbn [existsb]. fold (mem q l).
        destruct (Nat.eqb_spec q p) as [->|Nq]; cbn [orb].
        - rewrite Mp. unfold s'. destruct (Nat.eqb (cnt [] p) 0); cbn [f_count]; unfold upd; rewrite Nat.eqb_refl; reflexivity.
        - destruct (mem q l); [reflexivity|]. unfold s'.
          destruct (Nat.eqb (cnt [] p) 0); cbn [f_count]; unfold upd; (destruct (Nat.eqb_spec q p); [congruence|reflexivity]). }
      split; [exact E3|].
      intros q. rewrite E4. unfold mem. cbn [existsb]. fold (mem q l).
      destruct (Nat.eqb_spec q p) as [->|Nq]; cbn [orb andb].
      + rewrite Mp. cbn [andb]. unfold s'. destruct (Nat.eqb (cnt [] p) 0); cbn [f_ranks]; [|reflexivity].
        apply set_nth_same. rewrite HR. exact Hp'.
      + destruct (mem q l && Nat.eqb (cnt [] q) 0); [reflexivity|].
        unfold s'. destruct (Nat.eqb (cnt [] p) 0); cbn [f_ranks]; [|reflexivity].
        apply set_nth_other. exact Nq.
  Qed.

  Theorem fnds_ok : forall fuel ranks, n < fuel -> n <= length ranks ->
    exists fronts ranks', fnds n dom fuel ranks = Some (fronts, ranks') /\
      pareto_fronts n (fun p q => dom p q = true) fronts /\ ranks_ok ranks ranks' fronts.
  Proof.
    intros fuel ranks HFu HR. unfold fnds.
    set (s := first_pass n dom ranks).
    destruct (first_pass_eq ranks (seq 0 n) {| f_front := []; f_count := fun _ => 0; f_ranks := ranks |})
      as (E1 & E2 & E3 & E4).
    { intros p Hp. apply in_seq in Hp. lia. }
    { reflexivity. }
    { apply seq_NoDup. }
    change (fold_left (first_visit n dom) (seq 0 n) _) with s in E1, E2, E3, E4.
    cbn [f_front f_count f_ranks app] in *.
    apply (loop_ok fuel ranks [] (f_front s) (f_count s) (f_ranks s)); [exact HR| |cbn; lia|cbn; lia].
    assert (F0 : forall q, In q (f_front s) <-> q < n /\ cnt [] q = 0).
    { intros q. rewrite E1, filter_In, in_seq, Nat.eqb_eq. intuition lia. }
    assert (M : forall q, q < n -> mem q (seq 0 n) = true) by (intros q Hq; apply mem_In, in_seq; lia).
    constructor; cbn [concat app].
    - rewrite E1. apply NoDup_filter, seq_NoDup.
    - intros q Hq. apply F0 in Hq. tauto.
    - intros q Hq. rewrite E2, M by exact Hq. reflexivity.
    - intros q Hq. rewrite F0. tauto.
    - intros F [].
    - intros k i j (F & H1 & H2) Hj D. destruct k as [|[|k]]; cbn in H1; try discriminate.
      injection H1 as <-. apply F0 in H2. destruct H2 as [_ Z]. rewrite cnt_0 in Z. destruct (Z j Hj D).
    - intros k i (F & H1 & H2). destruct k; discriminate.
    - split; [exact E3|]. split.
      + intros k i (F & H1 & H2). destruct k as [|[|k]]; cbn in H1; try discriminate.
        injection H1 as <-. apply F0 in H2. destruct H2 as [Hi Z].
        rewrite E4, M, Z by exact Hi. reflexivity.
      + intros i Hi. rewrite E4. replace (mem i (seq 0 n)) with false; [reflexivity|].
        symmetry. destruct (mem i (seq 0 n)) eqn:X; [|reflexivity]. apply mem_In, in_seq in X. lia.
  Qed.
End Sort.
