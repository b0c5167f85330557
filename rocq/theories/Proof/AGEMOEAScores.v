(** AGE-MOEA: extreme points, and the scores decide within a front. *)
From Coq Require Import List Arith Bool Lia Permutation Sorted.
From Verif.Base Require Import Num Vec.
From Verif.Model Require Import SA Pareto NSGA2 AGEMOEA.
From Verif.Spec Require Import ParetoSpec NSGA2Spec AGEMOEASpec.
From Verif.Proof Require Import SAProof ParetoProof ParetoMore NSGA2Proof AGEMOEAProof AGEMOEARun.
Import ListNotations.

Section Scores.
  Context {N : Num}.
  Variable OL : OrdLaws N.
  Hypothesis exact : forall a : N, nisnan a = false.
  Notation vec := (list N).

  Lemma index_min_from_spec : forall (l : vec) i best b,
    let r := index_min_from i best b l in
    (r = best /\ forall w, In w l -> nlt w b = false) \/
    (i <= r < i + length l /\ nlt (nth (r - i) l n0) b = true /\ forall w, In w l -> nlt w (nth (r - i) l n0) = false).
  Proof.
    intros l; induction l as [|v l IH]; intros i best b; cbn [index_min_from]; cbv zeta; [left; split; [reflexivity|intros w []]|].
    destruct (nlt v b) eqn:E.
    - right. destruct (IH (S i) i v) as [[-> H]|(L & H1 & H2)].
      + split; [cbn; lia|]. rewrite Nat.sub_diag. cbn [nth]. split; [exact E|].
        intros w [<-|Hw]; [apply (ol_irrefl _ OL)|apply H; exact Hw].
      + split; [cbn; lia|]. replace (index_min_from (S i) i v l - i) with (S (index_min_from (S i) i v l - S i)) by lia.
        cbn [nth]. split; [eapply (ol_trans _ OL); eauto|].
        intros w [<-|Hw]; [|apply H2; exact Hw]. apply (lt_asym OL). exact H1.
    - destruct (IH (S i) best b) as [[-> H]|(L & H1 & H2)].
      + left. split; [reflexivity|]. intros w [<-|Hw]; auto.
      + right. split; [cbn; lia|]. replace (index_min_from (S i) best b l - i) with (S (index_min_from (S i) best b l - S i)) by lia.
        cbn [nth]. split; [exact H1|]. intros w [<-|Hw]; [|apply H2; exact Hw].
        destruct (nlt v (nth (index_min_from (S i) best b l - S i) l n0)) eqn:E'; [|reflexivity].
        rewrite (ol_trans _ OL _ _ _ E' H1) in E. discriminate.
  Qed.

  Section Extremes.
    Variable fs : list (vec -> N).
    Variables (inf t6 : N).
    Variables (objs : list vec) (front : list nat).
    Notation dist i j := (line_distance (axis fs t6 i) (row objs front j)).
    Hypothesis finite : forall i j, i < length fs -> j < length front -> nlt (dist i j) inf = true.

    (** the axis [k0], [k0 + 1], ...: each picks the nearest of the members not picked before *)
    Lemma extremes_from_ok : forall k k0 selected, NoDup selected -> (forall e, In e selected -> e < length front) ->
      length selected + k <= length front -> k0 + k <= length fs ->
      let l := extremes_from fs inf t6 k k0 objs front selected in
      length l = k /\ NoDup l /\ (forall e, In e l -> e < length front /\ ~ In e selected) /\
      (forall i, i < k -> forall j, j < length front -> ~ In j selected -> ~ In j (firstn i l) ->
         nlt (dist (k0 + i) j) (dist (k0 + i) (nth i l 0)) = false).
    Proof.
      intros k; induction k as [|k IH]; intros k0 selected ND LT HL HK; cbv zeta; cbn [extremes_from].
      { split; [reflexivity|]. split; [constructor|]. split; [intros e []|intros i Hi; lia]. }
      match goal with |- context [index_min inf ?l] => set (d := l) end.
      assert (Ld : length d = length front).
      { unfold d, line_distances. rewrite map_length, combine_length, map_length, !seq_length. lia. }
      assert (Nd : forall j, j < length front -> nth j d n0 = if existsb (Nat.eqb j) selected then inf else dist k0 j).
      { intros j Hj. unfold d, line_distances.
        erewrite nth_error_nth; [reflexivity|]. rewrite nth_error_map.
        assert (X : nth_error (combine (seq 0 (length front)) (map (fun i => dist k0 i) (seq 0 (length front)))) j
                    = Some (j, dist k0 j)).
        { clear - Hj. rewrite nth_error_nth' with (d := (0, dist k0 0)).
          - f_equal. rewrite combine_nth by (rewrite map_length; reflexivity). f_equal.
            + apply seq_nth. exact Hj.
            + rewrite (map_nth (fun i => dist k0 i)). rewrite seq_nth by exact Hj. reflexivity.
          - rewrite combine_length, map_length, seq_length. lia. }
        rewrite X. reflexivity. }
      assert (MEM : forall j, existsb (Nat.eqb j) selected = true <-> In j selected).
      { intros j. rewrite existsb_exists. split; [intros (y & Hy & E); apply Nat.eqb_eq in E; subst; exact Hy|].
        intros H. exists j. split; [exact H|apply Nat.eqb_refl]. }
      (* somebody is left *)
      assert (EX : exists j, j < length front /\ ~ In j selected).
      { destruct (existsb (fun j => negb (existsb (Nat.eqb j) selected)) (seq 0 (length front))) eqn:E.
        - apply existsb_exists in E. destruct E as (j & Hj & E). apply in_seq in Hj. exists j. split; [lia|].
          intros H. apply MEM in H. rewrite H in E. discriminate.
        - exfalso. assert (I : incl (seq 0 (length front)) selected).
          { intros j Hj. apply MEM. destruct (existsb (Nat.eqb j) selected) eqn:E'; [reflexivity|].
            assert (X : existsb (fun j => negb (existsb (Nat.eqb j) selected)) (seq 0 (length front)) = true).
            { apply existsb_exists. exists j. rewrite E'. auto. } congruence. }
          apply NoDup_incl_length in I; [|apply seq_NoDup]. rewrite seq_length in I. lia. }
      destruct EX as (j0 & Hj0 & NS0).
      assert (IM : index_min inf d < length front /\ nlt (nth (index_min inf d) d n0) inf = true /\
                   forall w, In w d -> nlt w (nth (index_min inf d) d n0) = false).
      { unfold index_min. destruct (index_min_from_spec d 0 0 inf) as [[_ H]|(L & H1 & H2)].
        - exfalso. assert (X : nlt (nth j0 d n0) inf = false) by (apply H; apply nth_In; lia).
          rewrite (Nd j0 Hj0) in X. destruct (existsb (Nat.eqb j0) selected) eqn:E; [apply MEM in E; contradiction|].
          rewrite finite in X by (exact Hj0 || lia). discriminate.
        - rewrite Nat.sub_0_r in *. split; [lia|]. split; assumption. }
      set (e := index_min inf d) in *. destruct IM as (Le & H1 & H2).
      assert (Ne : ~ In e selected).
      { intros H. apply MEM in H. rewrite (Nd e Le), H, (ol_irrefl _ OL) in H1. discriminate. }
      assert (De : nth e d n0 = dist k0 e).
      { rewrite (Nd e Le). destruct (existsb (Nat.eqb e) selected) eqn:E; [apply MEM in E; contradiction|reflexivity]. }
      destruct (IH (S k0) (e :: selected)) as (L & NDl & IN & BEST).
      { constructor; assumption. } { intros y [<-|Hy]; [exact Le|apply LT; exact Hy]. } { cbn. lia. } { lia. }
      cbv zeta in L, NDl, IN, BEST.
      split; [cbn; f_equal; exact L|]. split.
      { constructor; [|exact NDl]. intros H. apply IN in H. destruct H as [_ H]. apply H. left; reflexivity. }
      split.
      { intros y [<-|Hy]; [split; assumption|]. destruct (IN y Hy) as [A B]. split; [exact A|]. intros H. apply B. right; exact H. }
      intros [|i] Hi j Hj NS NF.
      - rewrite Nat.add_0_r. cbn [nth]. rewrite <- De. apply H2.
        assert (Dj : nth j d n0 = dist k0 j).
        { rewrite (Nd j Hj). destruct (existsb (Nat.eqb j) selected) eqn:E; [apply MEM in E; contradiction|reflexivity]. }
        rewrite <- Dj. apply nth_In. lia.
      - cbn [firstn] in NF. replace (k0 + S i) with (S k0 + i) by lia. cbn [nth]. apply BEST; [lia|exact Hj| |].
        + intros [H|H]; [|exact (NS H)]. apply NF. left; exact H.
        + intros H. apply NF. right; exact H.
    Qed.

    Lemma extremes_ok : length fs < length front ->
      let l := find_extreme_points fs inf t6 objs front in
      length l = length fs /\ NoDup l /\ (forall e, In e l -> e < length front) /\
      (forall i, i < length fs -> forall j, j < length front -> ~ In j (firstn i l) ->
         nlt (dist i j) (dist i (nth i l 0)) = false).
    Proof.
      intros HL. cbv zeta. unfold find_extreme_points.
      destruct (Nat.leb_spec (length front) (length fs)) as [H|H]; [lia|].
      destruct (extremes_from_ok (length fs) 0 []) as (L & ND & IN & B); [constructor|intros e []|cbn; lia|lia|].
      cbv zeta in L, ND, IN, B. split; [exact L|]. split; [exact ND|]. split; [intros e He; apply IN; exact He|].
      intros i Hi j Hj NF. exact (B i Hi j Hj (fun x => x) NF).
    Qed.
  End Extremes.

  Lemma generation_scores : forall n (cp di eps eta : N) fs pw lg solve inf t14 t10 t6 rnd sortp fuel gen lo hi x s s',
    is_sort sortp -> (forall a : N, nle (nabs (nsub a a)) eps = true) -> n <= length (g_pop s) -> 2 * length (g_pop s) + 1 < fuel ->
    AGEMOEA.generation n cp di eps eta fs pw lg solve inf t14 t10 t6 rnd sortp fuel gen lo hi x s = NRet s' ->
    length (g_merged s') < fuel ->
    NoDup (g_merged s') ->
    (forall p q, In p (g_merged s') -> In q (g_merged s') -> approx_equal eps p q = true -> p = q) ->
    exists ideal sc dropped,
      assign fs pw lg solve inf t6 fuel ideal (g_fronts s') (map (objv fs) (g_merged s')) = Some sc /\
      Permutation (g_pop s' ++ dropped) (g_merged s') /\
      forall i j k, in_front (g_fronts s') k i -> in_front (g_fronts s') k j ->
        In (nth i (g_merged s') []) (g_pop s') -> In (nth j (g_merged s') []) dropped ->
        nlt (nth i (s_score sc) n0) (nth j (s_score sc) n0) = false.
  Proof.
    intros n cp di eps eta fs pw lg solve inf t14 t10 t6 rnd sortp fuel gen lo hi x s s' [SP SS] HR HN HF E LF ND HE.
    unfold AGEMOEA.generation in E.
    destruct (AGEMOEA.children n cp di eta pw t14 t10 rnd fuel gen 0 lo hi (g_pop s) []) as [cs| | |]; try discriminate E.
    cbv zeta in E. set (pop := g_pop s ++ cs) in *.
    rewrite evaluate_table in E by lia. rewrite Nat.sub_diag, firstn_all in E. cbn [repeat] in E. rewrite app_nil_r in E.
    set (objs := map (objv fs) pop) in *.
    assert (LO : length objs = length pop) by (unfold objs; apply map_length).
    assert (TB : table (length fs) objs).
    { intros P HP. apply in_map_iff in HP. destruct HP as (p & <- & _). split; [apply map_length|]. intros a _. apply exact. }
    destruct (fnds (length objs) (dom_at objs) fuel (resize 0 (length pop) (g_ranks s))) as [[fronts ranks]|] eqn:EQ; [|discriminate E].
    destruct fronts as [|[|i0 f0] rest] eqn:EF; try discriminate E. rewrite <- EF in *.
    match type of E with context [assign _ _ _ _ _ _ _ ?id _ _] => set (ideal := id) in E end.
    destruct (assign fs pw lg solve inf t6 fuel ideal fronts objs) as [sc|] eqn:EA; [|discriminate E].
    injection E as <-. cbn [g_pop g_merged g_fronts] in *.
    match goal with |- context [sortp ?c pop] => set (lt := c) end.
    assert (LS : n <= length (sortp lt pop)).
    { rewrite (Permutation_length (SP lt pop)). unfold pop. rewrite app_length. lia. }
    exists ideal, sc, (skipn n (sortp lt pop)). split; [exact EA|]. rewrite resize_firstn by exact LS.
    split; [rewrite firstn_skipn; apply SP|].
    intros i j k Fi Fj Ki Dj.
    assert (X : lt (nth j pop []) (nth i pop []) = false).
    { eapply (sorted_split (fun a b => lt b a = false)); [|exact Ki|exact Dj].
      apply SS. unfold lt. apply (survival_swo OL exact ranks (s_score sc) (find_last eps pop) pop). }
    destruct (fnds_table N OL (length fs) (length objs) objs fuel (resize 0 (length pop) (g_ranks s)) TB) as (fr & rk & EQ' & PF & _ & RK & _).
    { lia. } { rewrite resize_length. lia. } { lia. }
    rewrite EQ in EQ'. injection EQ' as <- <-.
    assert (Li : i < length pop) by (rewrite <- LO; eapply front_lt; eauto).
    assert (Lj : j < length pop) by (rewrite <- LO; eapply front_lt; eauto).
    assert (IX : forall a, a < length pop -> find_last eps pop (nth a pop []) = a).
    { intros a Ha. destruct (find_last_ok eps pop (nth a pop []) (nth_In _ _ Ha) HR HE) as [Q1 Q2].
      eapply (proj1 (NoDup_nth pop [])); eauto. }
    unfold lt, survival_operator in X. rewrite !IX in X by assumption.
    rewrite (nth_error_nth _ _ _ (RK k i Fi)), (nth_error_nth _ _ _ (RK k j Fj)), Nat.ltb_irrefl, Nat.eqb_refl in X.
    exact X.
  Qed.
End Scores.
