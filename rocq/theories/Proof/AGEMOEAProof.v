(** AGE-MOEA: bounds, what is reported, elitism, the score loop ends. *)
From Coq Require Import List Arith Bool ZArith Lia Permutation Sorted.
From Verif.Base Require Import Num Vec Size.
From Verif.Model Require Import SA Pareto NSGA2 AGEMOEA.
From Verif.Spec Require Import ParetoSpec NSGA2Spec AGEMOEASpec.
From Verif.Proof Require Import SAProof ParetoProof ParetoMore NSGA2Proof.
Import ListNotations.

(** ** the first front is in ascending order *)
Lemma fnds_loop_hd : forall n dom fuel i F0 rest c r fronts r',
  fnds_loop n dom fuel i (F0 :: rest) c r = Some (fronts, r') -> F0 <> [] -> i <= length rest ->
  hd_error fronts = Some F0.
Proof.
  intros n dom fuel; induction fuel as [|fuel IH]; intros i F0 rest c r fronts r' E NE LI; [discriminate|].
  cbn [fnds_loop] in E. destruct (nth i (F0 :: rest) []) as [|a l] eqn:EN.
  - injection E as <- _. destruct rest as [|b rest]; [|reflexivity].
    cbn in LI. assert (i = 0) by lia. subst i. cbn in EN. congruence.
  - cbn [app] in E. eapply IH in E; [exact E|exact NE|]. rewrite app_length. cbn. lia.
Qed.

Section Asc.
  Variable n : nat.
  Variable dom : nat -> nat -> bool.
  Hypothesis irr : forall p, p < n -> dom p p = false.
  Hypothesis tra : forall p q r, p < n -> q < n -> r < n -> dom p q = true -> dom q r = true -> dom p r = true.

  Lemma fnds_first : forall fuel ranks fronts ranks' i f0 rest, n <= length ranks ->
    fnds n dom fuel ranks = Some (fronts, ranks') -> fronts = (i :: f0) :: rest ->
    forall j, In j (i :: f0) -> i <= j.
  Proof.
    intros fuel ranks fronts ranks' i f0 rest HR E EF.
    unfold fnds in E.
    destruct (first_pass_eq n dom irr tra ranks (seq 0 n) {| f_front := []; f_count := fun _ => 0; f_ranks := ranks |})
      as (E1 & _).
    { intros p Hp. apply in_seq in Hp. lia. } { reflexivity. } { apply seq_NoDup. }
    change (fold_left (first_visit n dom) (seq 0 n) _) with (first_pass n dom ranks) in E1. cbn [f_front app] in E1.
    assert (NE : f_front (first_pass n dom ranks) <> []).
    { intros Z. rewrite Z in E. destruct fuel; [discriminate|]. cbn in E. injection E as <- _. discriminate. }
    assert (H := fnds_loop_hd _ _ _ _ _ _ _ _ _ _ E NE (Nat.le_0_l _)). rewrite EF in H. cbn in H.
    injection H as H. rewrite E1 in H.
    assert (SS : forall k m (f : nat -> bool), StronglySorted lt (filter f (seq k m))).
    { clear. intros k m f; revert k; induction m as [|m IH]; intros k; cbn; [constructor|].
      destruct (f k); [|apply IH]. constructor; [apply IH|]. apply Forall_forall. intros x Hx.
      apply filter_In in Hx. destruct Hx as [Hx _]. apply in_seq in Hx. lia. }
    specialize (SS 0 n (fun p => Nat.eqb (cnt n dom [] p) 0)). rewrite <- H in SS.
    inversion SS as [|? ? _ Fa]; subst. intros j [<-|Hj]; [lia|]. rewrite Forall_forall in Fa. specialize (Fa j Hj). lia.
  Qed.
End Asc.

Section Score.
  Context {N : Num}.
  Variable OL : OrdLaws N.
  Notation vec := (list N).
  Variable fs : list (vec -> N).
  Variable pw : N -> N -> N.
  Variable lg : N -> N.
  Variable solve : list vec -> option vec.
  Variables (inf tiny6 : N).
  Notation M := (length fs).

  (** ** the rows keep their length *)
  Definition rows (objs : list vec) : Prop := forall i r, nth_error objs i = Some r -> length r = M.

  Lemma rows_nth : forall objs k, rows objs -> k < length objs -> length (nth k objs []) = M.
  Proof. intros objs k H Hk. eapply H. apply nth_error_nth'. exact Hk. Qed.

  Lemma on_front_rows : forall front (g : vec -> vec) objs, rows objs -> (forall k, In k front -> k < length objs) ->
    (forall o, length o = M -> length (g o) = M) ->
    rows (on_front front g objs) /\ length (on_front front g objs) = length objs.
  Proof.
    intros front g; unfold on_front; induction front as [|k front IH]; intros objs HR HF HG; cbn [fold_left]; [auto|].
    assert (Hk : k < length objs) by (apply HF; left; reflexivity).
    destruct (IH (set_nth k (g (nth k objs [])) objs)) as [A B].
    - intros i r H. destruct (Nat.eq_dec i k) as [ -> |Ne].
      + rewrite set_nth_same in H by exact Hk. injection H as <-. apply HG. apply rows_nth; assumption.
      + rewrite set_nth_other in H by exact Ne. eapply HR; eauto.
    - intros j Hj. rewrite set_nth_length. apply HF. right; exact Hj.
    - exact HG.
    - split; [exact A|]. rewrite B. apply set_nth_length.
  Qed.

  Lemma column_max_length : forall objs front, rows objs -> front <> [] -> (forall k, In k front -> k < length objs) ->
    length (column_max objs front) = M.
  Proof.
    intros objs front HR NE HF. unfold column_max. destruct front as [|k front]; [congruence|]. cbn [map].
    assert (L0 : length (nth k objs []) = M) by (apply rows_nth; [exact HR|apply HF; left; reflexivity]).
    revert L0. generalize (nth k objs []). assert (HF' : forall j, In j front -> j < length objs) by (intros j Hj; apply HF; right; exact Hj).
    clear HF NE. induction front as [|j front IH]; intros a L0; cbn [map fold_left]; [exact L0|].
    apply IH; [intros i Hi; apply HF'; right; exact Hi|]. unfold vmax2. rewrite map2_length, L0.
    rewrite rows_nth; [lia|exact HR|apply HF'; left; reflexivity].
  Qed.

  Lemma normalize_length : forall objs front extreme, rows objs -> front <> [] -> (forall k, In k front -> k < length objs) ->
    (forall l v, solve l = Some v -> length v = M) ->
    length (normalize_front fs solve objs front extreme) = M.
  Proof.
    intros objs front extreme HR NE HF HS. unfold normalize_front.
    assert (C := column_max_length objs front HR NE HF).
    destruct (Nat.ltb _ _); [exact C|]. destruct (nodupb extreme); cbn [negb]; [|exact C].
    destruct (solve _) as [h|] eqn:E; [|unfold no_zero; rewrite map_length; exact C].
    apply HS in E. destruct (_ || _ || _); [unfold no_zero; rewrite map_length; exact C|].
    destruct (_ || _); unfold no_zero; rewrite !map_length; assumption.
  Qed.

  Lemma assign_other_ok : forall ideal front s, length ideal = M -> rows (s_objs s) -> length (s_norm s) = M ->
    (forall k, In k front -> k < length (s_objs s)) ->
    let s' := assign_other pw ideal front s in
    rows (s_objs s') /\ length (s_objs s') = length (s_objs s) /\ s_norm s' = s_norm s.
  Proof.
    intros ideal front s LI HR LN HF. unfold assign_other. cbv zeta. cbn [s_objs s_norm].
    destruct (on_front_rows front (fun o => map2 ndiv o (s_norm s)) (s_objs s) HR HF) as [A B].
    { intros o Ho. rewrite map2_length. lia. }
    auto.
  Qed.

  Lemma assign_ok : forall fuel ideal fronts objs s', length ideal = M -> rows objs ->
    (forall F k, In F fronts -> In k F -> k < length objs) -> (forall F, In F fronts -> F <> []) ->
    (forall l v, solve l = Some v -> length v = M) ->
    assign fs pw lg solve inf tiny6 fuel ideal fronts objs = Some s' ->
    rows (s_objs s') /\ length (s_objs s') = length objs.
  Proof.
    intros fuel ideal fronts objs s' LI HR HF NE HS E. unfold assign in E.
    destruct fronts as [|f0 rest]; [injection E as <-; auto|].
    destruct (assign_first _ _ _ _ _ _ _ _ _ _) as [s1|] eqn:E1; [|discriminate]. injection E as <-.
    assert (P1 : rows (s_objs s1) /\ length (s_objs s1) = length objs /\ length (s_norm s1) = M).
    { assert (F0 : forall k, In k f0 -> k < length objs) by (intros k Hk; eapply HF; [left; reflexivity|exact Hk]).
      assert (N0 : f0 <> []) by (apply NE; left; reflexivity).
      unfold assign_first in E1. cbn [s_objs s_score] in E1. destruct (Nat.ltb _ _).
      - injection E1 as <-. cbn [s_objs s_norm]. split; [exact HR|]. split; [reflexivity|]. apply normalize_length; assumption.
      - cbv zeta in E1. destruct (survive _ _ _ _ _) as [sc|]; [|discriminate]. injection E1 as <-. cbn [s_objs s_norm].
        destruct (on_front_rows f0 (fun o => vsub o ideal) objs HR F0) as [A B].
        { intros o Ho. unfold vsub. rewrite map2_length. lia. }
        assert (F1 : forall k, In k f0 -> k < length (on_front f0 (fun o => vsub o ideal) objs)) by (rewrite B; exact F0).
        assert (LN := normalize_length _ f0 (find_extreme_points fs inf tiny6 (on_front f0 (fun o => vsub o ideal) objs) f0) A N0 F1 HS).
        match goal with |- context [on_front f0 ?g (on_front f0 ?h objs)] => destruct (on_front_rows f0 g (on_front f0 h objs) A F1) as [A2 B2] end.
        { intros o Ho. rewrite map2_length. lia. }
        split; [exact A2|]. split; [rewrite B2; exact B|exact LN]. }
    destruct P1 as (A & B & C).
    assert (HF' : forall F k, In F rest -> In k F -> k < length (s_objs s1)).
    { intros F k H1 H2. rewrite B. eapply HF; [right; exact H1|exact H2]. }
    rewrite <- B. clear - A C HF' LI.
    revert s1 A C HF'. induction rest as [|F rest IH]; intros s1 A C HF'; cbn [fold_left]; [auto|].
    destruct (assign_other_ok ideal F s1 LI A C) as (A1 & B1 & C1).
    { intros k Hk. eapply HF'; [left; reflexivity|exact Hk]. }
    destruct (IH (assign_other pw ideal F s1) A1) as [A2 B2].
    { rewrite C1. exact C. }
    { intros G k H1 H2. rewrite B1. eapply HF'; [right; exact H1|exact H2]. }
    split; [exact A2|]. rewrite B2. exact B1.
  Qed.

  (** ** the while loop of the score assignment ends *)
  Hypothesis SL : score_laws inf.

  Lemma index_max_from_spec : forall (l : vec) i best b,
    let r := index_max_from i best b l in
    (r = best \/ (i <= r < i + length l /\ nlt b (nth (r - i) l n0) = true)).
  Proof.
    intros l; induction l as [|v l IH]; intros i best b; cbn [index_max_from]; cbv zeta; [left; reflexivity|].
    destruct (nlt b v) eqn:E.
    - destruct (IH (S i) i v) as [ -> |[L H]]; right.
      + split; [cbn; lia|]. rewrite Nat.sub_diag. exact E.
      + split; [cbn; lia|]. replace (index_max_from (S i) i v l - i) with (S (index_max_from (S i) i v l - S i)) by lia.
        cbn [nth]. eapply (ol_trans _ OL); eauto.
    - destruct (IH (S i) best b) as [ -> |[L H]]; [left; reflexivity|right].
      split; [cbn; lia|]. replace (index_max_from (S i) best b l - i) with (S (index_max_from (S i) best b l - S i)) by lia.
      exact H.
  Qed.

  (** if some element exceeds [c] and every start value below it does not, an element that exceeds c is picked *)
  Lemma index_max_picks : forall (c : N) (l : vec) i best b,
    (nlt b c = true \/ b = c) -> (forall v, In v l -> v = c \/ nlt c v = true) ->
    (exists v, In v l /\ nlt c v = true) ->
    let r := index_max_from i best b l in i <= r < i + length l /\ nlt c (nth (r - i) l n0) = true.
  Proof.
    intros c l; induction l as [|v l IH]; intros i best b HB HA (w & Hw & W); [destruct Hw|].
    cbn [index_max_from]. cbv zeta.
    destruct (HA v (or_introl eq_refl)) as [ -> |V].
    - (* v = c: not the one *)
      destruct Hw as [ -> |Hw]; [rewrite (ol_irrefl _ OL) in W; discriminate|].
      assert (HA' : forall v, In v l -> v = c \/ nlt c v = true) by (intros u Hu; apply HA; right; exact Hu).
      destruct (nlt b c) eqn:E.
      + destruct (IH (S i) i c (or_intror eq_refl) HA' (ex_intro _ w (conj Hw W))) as [L H]. split; [cbn; lia|].
        replace (index_max_from (S i) i c l - i) with (S (index_max_from (S i) i c l - S i)) by lia. exact H.
      + destruct (IH (S i) best b) as [L H]; auto; [destruct HB; [congruence|auto]|eauto|]. split; [cbn; lia|].
        replace (index_max_from (S i) best b l - i) with (S (index_max_from (S i) best b l - S i)) by lia. exact H.
    - assert (BV : nlt b v = true) by (destruct HB as [HB| ->]; [eapply (ol_trans _ OL); eauto|exact V]).
      rewrite BV. destruct (index_max_from_spec l (S i) i v) as [ -> |[L H]].
      + split; [cbn; lia|]. rewrite Nat.sub_diag. exact V.
      + split; [cbn; lia|]. replace (index_max_from (S i) i v l - i) with (S (index_max_from (S i) i v l - S i)) by lia.
        cbn [nth]. eapply (ol_trans _ OL); eauto.
  Qed.

  Lemma diversity_above : forall (dist : nat -> nat -> N) sel s, (forall i j, nlt (dist i j) n0 = false) ->
    nlt (nopp n1) (diversity inf dist sel s) = true.
  Proof.
    intros dist sel s HD. unfold diversity.
    match goal with |- context [fold_left ?f sel (inf, inf)] =>
      assert (G : forall l m m1, (m = inf \/ (nlt m n0 = false /\ nlt m inf = true)) -> (m1 = inf \/ (nlt m1 n0 = false /\ nlt m1 inf = true)) ->
         let p := fold_left f l (m, m1) in
         (fst p = inf \/ (nlt (fst p) n0 = false /\ nlt (fst p) inf = true)) /\ (snd p = inf \/ (nlt (snd p) n0 = false /\ nlt (snd p) inf = true))) end.
    { intros l; induction l as [|k l IH]; intros m m1 Hm Hm1; cbn [fold_left]; [cbn; auto|].
      destruct (Nat.eqb k s); [apply IH; assumption|].
      destruct (nlt (dist s k) m) eqn:E.
      - apply IH; [|exact Hm]. right. split; [apply HD|]. destruct Hm as [ -> |[_ L]]; [exact E|eapply (ol_trans _ OL); eauto].
      - destruct (nlt (dist s k) m1) eqn:E1; [|apply IH; assumption].
        apply IH; [exact Hm|]. right. split; [apply HD|]. destruct Hm1 as [ -> |[_ L]]; [exact E1|eapply (ol_trans _ OL); eauto]. }
    specialize (G sel inf inf (or_introl eq_refl) (or_introl eq_refl)). cbv zeta in G.
    destruct (fold_left _ sel (inf, inf)) as [m m1]. cbn [fst snd] in G. destruct G as [Gm Gm1].
    assert (X : forall m : N, (m = inf \/ (nlt m n0 = false /\ nlt m inf = true)) ->
        let v := if neq m inf then n0 else m in v = n0 \/ (nlt v n0 = false /\ nlt v inf = true)).
    { intros u [ -> |H]; cbv zeta.
      - destruct (neq inf inf) eqn:E; [left; reflexivity|]. exfalso.
        assert (T : nle inf inf = true) by (apply (ol_total _ OL); [apply (sl_num _ SL)|apply (sl_num _ SL)|apply (ol_irrefl _ OL)]).
        assert (neq inf inf = true) by (apply (ol_eq _ OL); auto). congruence.
      - destruct (neq u inf); [left; reflexivity|right; exact H]. }
    apply (sl_sum _ SL); apply X; assumption.
  Qed.

  Lemma others_in : forall n sel i, In i (others n sel) <-> i < n /\ ~ In i sel.
  Proof.
    intros n sel i. unfold others. rewrite filter_In, in_seq, negb_true_iff.
    fold (mem i sel). split.
    - intros [H E]. split; [lia|]. intros I. apply mem_In in I. congruence.
    - intros [H E]. split; [lia|]. destruct (mem i sel) eqn:Em; [apply mem_In in Em; contradiction|reflexivity].
  Qed.

  Lemma others_less : forall n sel k, In k (others n sel) -> S (length (others n (k :: sel))) <= length (others n sel).
  Proof.
    intros n sel k Hk.
    assert (I : incl (k :: others n (k :: sel)) (others n sel)).
    { intros i [<-|Hi]; [exact Hk|]. rewrite others_in in *. cbn in Hi. tauto. }
    assert (ND : NoDup (k :: others n (k :: sel))).
    { constructor; [rewrite others_in; cbn; tauto|]. apply NoDup_filter, seq_NoDup. }
    apply (NoDup_incl_length ND I).
  Qed.

  Lemma survive_ends : forall k (dist : nat -> nat -> N) front sel score, (forall i j, nlt (dist i j) n0 = false) ->
    length (others (length front) sel) <= k -> survive inf k dist front sel score <> None.
  Proof.
    intros k; induction k as [|k IH]; intros dist front sel score HD HK.
    - cbn [survive]. destruct (others (length front) sel) as [|a l]; [discriminate|cbn in HK; lia].
    - cbn [survive]. destruct (others (length front) sel) as [|a l] eqn:EO; [discriminate|]. rewrite <- EO in HK. cbv zeta.
      match goal with |- context [index_max inf ?v] => set (value := v) end.
      assert (LV : length value = length front) by (unfold value; rewrite map_length, seq_length; reflexivity).
      assert (NV : forall i, i < length front -> nth i value n0 = if existsb (Nat.eqb i) sel then nopp n1
          else diversity inf dist (filter (fun j => existsb (Nat.eqb j) sel) (seq 0 (length front))) i).
      { intros i Hi. unfold value.
        match goal with |- nth i (map ?f _) n0 = _ => rewrite (nth_indep _ n0 (f 0)) by (rewrite map_length, seq_length; exact Hi); rewrite (map_nth f) end.
        rewrite seq_nth by exact Hi. reflexivity. }
      assert (Ia : In a (others (length front) sel)) by (rewrite EO; left; reflexivity).
      apply others_in in Ia. destruct Ia as [La Na].
      destruct (index_max_picks (nopp n1) value 0 0 (nopp inf)) as [L H].
      { left. apply (sl_bottom _ SL). }
      { intros v Hv. apply In_nth with (d := n0) in Hv. destruct Hv as (i & Hi & <-). rewrite LV in Hi. rewrite NV by exact Hi.
        destruct (existsb (Nat.eqb i) sel); [left; reflexivity|right]. apply diversity_above. exact HD. }
      { exists (nth a value n0). split; [apply nth_In; lia|]. rewrite NV by exact La. fold (mem a sel).
        destruct (mem a sel) eqn:Em; [apply mem_In in Em; contradiction|]. apply diversity_above. exact HD. }
      cbv zeta in L, H. fold (index_max inf value) in L, H. rewrite Nat.sub_0_r in H. cbn [Nat.add] in L.
      assert (In (index_max inf value) (others (length front) sel)).
      { apply others_in. split; [lia|]. intros I. apply mem_In in I. unfold mem in I. rewrite NV in H by lia. rewrite I in H.
        rewrite (ol_irrefl _ OL) in H. discriminate. }
      apply IH; [exact HD|]. apply others_less in H0. lia.
  Qed.

  Lemma others_length : forall n sel, length (others n sel) <= n.
  Proof.
    intros n sel. unfold others. rewrite <- (seq_length n 0) at 2. generalize (seq 0 n). intros l.
    induction l as [|a l IH]; cbn; [lia|]. destruct (negb _); cbn; lia.
  Qed.

  Lemma assign_ends : forall fuel ideal fronts objs,
    (forall o fr p i j, nlt (pairwise pw o fr p i j) n0 = false) ->
    (forall F, In F fronts -> length F <= fuel) ->
    assign fs pw lg solve inf tiny6 fuel ideal fronts objs <> None.
  Proof.
    intros fuel ideal fronts objs HD HF. unfold assign. destruct fronts as [|f0 rest]; [discriminate|].
    assert (E : assign_first fs pw lg solve inf tiny6 fuel ideal f0
       {| s_objs := objs; s_score := repeat n0 (length objs); s_norm := repeat n0 M; s_dim := n0 |} <> None).
    { unfold assign_first. destruct (Nat.ltb _ _); [discriminate|]. cbv zeta.
      match goal with |- context [survive inf fuel ?d f0 ?e ?sc] => assert (Q := survive_ends fuel d f0 e sc) end.
      destruct (survive _ _ _ _ _ _); [discriminate|]. intros _. apply Q; [intros i j; apply HD| |reflexivity].
      etransitivity; [apply others_length|]. apply HF. left; reflexivity. }
    destruct (assign_first _ _ _ _ _ _ _ _ _ _); [discriminate|congruence].
  Qed.
End Score.
