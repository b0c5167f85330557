(** AGE-MOEA: a generation, a run, and which individuals survive. *)
From Coq Require Import List Arith Bool ZArith Lia Permutation Sorted.
From Verif.Base Require Import Num Vec Size.
From Verif.Model Require Import SA Pareto NSGA2 AGEMOEA.
From Verif.Spec Require Import ParetoSpec NSGA2Spec AGEMOEASpec.
From Verif.Proof Require Import SAProof ParetoProof ParetoMore NSGA2Proof AGEMOEAProof.
Import ListNotations.

Lemma mutate_genes_length : forall (N : Num) (di : N) pw rate l h x us d, length l = d -> length h = d -> length x = d -> length us = d ->
  length (mutate_genes di pw rate l h x us) = d.
Proof.
  intros N di pw rate l; induction l as [|a l IH]; intros [|b h] [|y x] [|u us] d H1 H2 H3 H4; cbn in *; try lia.
  destruct d as [|d]; [lia|]. f_equal. apply IH; lia.
Qed.
Lemma cross_genes_length : forall (N : Num) (eta : N) pw t10 l h a b u1 u2 u3 d, length l = d -> length h = d -> length a = d -> length b = d ->
  length u1 = d -> length u2 = d -> length u3 = d ->
  length (cross_genes eta pw t10 l h a b u1 u2 u3) = d.
Proof.
  intros N eta pw t10 l; induction l as [|x l IH]; intros [|y h] [|a aa] [|b bb] [|p u1] [|q u2] [|r u3] d H1 H2 H3 H4 H5 H6 H7; cbn in *; try lia.
  destruct d as [|d]; [lia|]. f_equal. apply IH; lia.
Qed.

Section Gen.
  Context {N : Num}.
  Variable OL : OrdLaws N.
  Notation vec := (list N).
  Variables (n : nat) (cp di eps eta : N).
  Variables (lo hi : vec) (d : nat).
  Hypothesis PB : proper_bounds d lo hi.
  Variable fs : list (vec -> N).
  Hypothesis NN : forall f x, In f fs -> nisnan (f x) = false.
  Variable stop : list (nev N) -> bool.
  Variable pw : N -> N -> N.
  Variable lg : N -> N.
  Variable solve : list vec -> option vec.
  Hypothesis SV : forall l v, solve l = Some v -> length v = length fs.
  Variables (inf t14 t10 t6 : N).
  Variable rnd : nat -> nat -> @adraws N.
  Hypothesis GD : forall g j, good_adraws n d (rnd g j).
  Variable sortp : (vec -> vec -> bool) -> list vec -> list vec.
  Hypothesis SP : forall c l, Permutation (sortp c l) l.

  Lemma mutate_in : forall x us, length x = d -> length us = d -> within lo hi (AGEMOEA.mutate di pw lo hi x us).
  Proof.
    intros x us H1 H2. destruct PB as (L1 & L2 & B). unfold AGEMOEA.mutate. apply (clip_within OL); [lia| |exact B].
    rewrite (mutate_genes_length _ _ _ _ _ _ _ _ d); auto.
  Qed.

  Notation children' := (AGEMOEA.children n cp di eta pw t14 t10 rnd).
  Lemma children_ok' : forall fuel gen j pop acc,
    4 <= n -> length pop = n -> (forall x, In x pop -> length x = d) -> (forall x, In x acc -> within lo hi x) ->
    length acc <= n + 1 -> length pop <= fuel + length acc ->
    exists cs, children' fuel gen j lo hi pop acc = NRet cs /\
      n <= length cs <= n + 1 /\ (forall x, In x cs -> within lo hi x).
  Proof.
    intros fuel; induction fuel as [|fuel IH]; intros gen j pop acc Hn Hp HL HA HM HF; cbn [AGEMOEA.children].
    - destruct (Nat.ltb_spec (length acc) (length pop)); [lia|]. exists acc. split; [reflexivity|]. split; [lia|exact HA].
    - destruct (Nat.ltb_spec (length acc) (length pop)) as [Hlt|Hge]; [|exists acc; split; [reflexivity|split; [lia|exact HA]]].
      destruct (GD gen j) as (Ga & Gb & G1 & G2 & G3 & G4 & G5). cbv zeta.
      destruct (nth_error pop (a_a (rnd gen j))) as [pa|] eqn:Ea; [|apply nth_error_None in Ea; lia].
      assert (Go := other_lt n (a_a (rnd gen j)) (a_b (rnd gen j)) Hn Ga Gb).
      destruct (nth_error pop (other n (a_a (rnd gen j)) (a_b (rnd gen j)))) as [pb|] eqn:Eb; [|apply nth_error_None in Eb; lia].
      assert (Lx : length pa = d /\ length pb = d) by (split; apply HL; eapply nth_error_In; eassumption).
      destruct Lx as [La Lb]. destruct PB as (L1 & L2 & _).
      assert (C : length (fst (if nle (a_u (rnd gen j)) cp then AGEMOEA.crossover eta pw t14 t10 lo hi pa pb (rnd gen j) else (pa, pb))) = d /\
                  length (snd (if nle (a_u (rnd gen j)) cp then AGEMOEA.crossover eta pw t14 t10 lo hi pa pb (rnd gen j) else (pa, pb))) = d).
      { destruct (nle _ _); [|auto]. unfold AGEMOEA.crossover. destruct (existsb _ _); [auto|]. cbn [fst snd].
        rewrite !map_length. rewrite (cross_genes_length _ _ _ _ _ _ _ _ _ _ _ d); auto. }
      destruct (if nle _ _ then _ else _) as [ca cb]. cbn [fst snd] in C. destruct C as [Ca Cb].
      apply IH; auto.
      + intros x. rewrite in_app_iff. intros [H|[<-|[<-|[]]]]; [apply HA; exact H| |]; apply mutate_in; assumption.
      + rewrite app_length. cbn. lia.
      + rewrite app_length. cbn. lia.
  Qed.

  Notation M := (length fs).
  Notation good_pop := (fun pop : list vec => length pop = n /\ forall x, In x pop -> within lo hi x).

  (** what one generation leaves behind *)
  Record gafter (s' : @ast N) : Prop := {
    ga_len : 2 * n <= length (g_merged s') <= 2 * n + 1;
    ga_in : forall x, In x (g_merged s') -> within lo hi x;
    ga_pop : exists ranks (score : vec),
        g_pop s' = firstn n (sortp (fun p q => survival_operator ranks score (find_last eps (g_merged s') p) (find_last eps (g_merged s') q)) (g_merged s')) /\
        (forall k i, in_front (g_fronts s') k i -> nth_error ranks i = Some k);
    ga_fronts : pareto_fronts (length (g_merged s')) (beats (map (objv fs) (g_merged s'))) (g_fronts s');
    ga_first : exists i f rest, g_fronts s' = (i :: f) :: rest /\ forall j, In j (i :: f) -> i <= j;
    ga_rows : rows fs (g_objs s') /\ length (g_objs s') = length (g_merged s')
  }.

  Notation generation' := (AGEMOEA.generation n cp di eps eta fs pw lg solve inf t14 t10 t6 rnd sortp).
  Lemma generation_cases : forall fuel gen x s, 4 <= n -> 2 * n + 1 < fuel -> good_pop (g_pop s) ->
    (exists s', generation' fuel gen lo hi x s = NRet s' /\ good_pop (g_pop s') /\ gafter s' /\
       g_tr s' = NGen x (g_objs s') (g_fronts s') :: g_tr s) \/
    (generation' fuel gen lo hi x s = NMore /\
     exists ideal fronts objs, (forall F, In F fronts -> length F <= fuel) /\
       assign fs pw lg solve inf t6 fuel ideal fronts objs = None).
  Proof.
    intros fuel gen x s Hn HF [GL GW]. unfold AGEMOEA.generation.
    destruct (children_ok' fuel gen 0 (g_pop s) []) as (cs & EC & LC & WC); [exact Hn|exact GL| |intros y []|cbn; lia|cbn; lia|].
    { intros y Hy. destruct (GW y Hy) as [L _]. destruct PB as [P1 _]. lia. }
    rewrite EC. cbv zeta. set (pop := g_pop s ++ cs).
    assert (LP : 2 * n <= length pop <= 2 * n + 1) by (unfold pop; rewrite app_length; lia).
    assert (WP : forall y, In y pop -> within lo hi y) by (unfold pop; intros y Hy; apply in_app_or in Hy; destruct Hy; auto).
    rewrite evaluate_table by lia. rewrite Nat.sub_diag, firstn_all. cbn [repeat]. rewrite app_nil_r.
    set (objs := map (objv fs) pop).
    assert (LO : length objs = length pop) by (unfold objs; apply map_length).
    assert (TB : table M objs) by (apply objv_table; exact NN).
    assert (RO : rows fs objs).
    { intros i r H. apply nth_error_In in H. apply TB in H. tauto. }
    destruct (fnds_table N OL M (length objs) objs fuel (resize 0 (length pop) (g_ranks s)) TB) as (fronts & ranks & EQ & PF & _ & RK & _).
    { lia. } { rewrite resize_length. lia. } { lia. }
    assert (FI : exists i f rest, fronts = (i :: f) :: rest).
    { assert (H0 : In 0 (concat fronts)) by (apply (pf_all _ _ _ PF); lia).
      destruct fronts as [|[|i f] rest] eqn:EF; [destruct H0| |eauto].
      exfalso. apply (pf_some _ _ _ PF []); [left; reflexivity|reflexivity]. }
    destruct FI as (i0 & f0 & rest & FI).
    assert (ASC : forall j, In j (i0 :: f0) -> i0 <= j).
    { eapply (fnds_first (length objs) (dom_at objs)); [| |idtac|exact EQ|exact FI].
      - intros p Hp. apply dominates_irrefl. exact OL.
      - intros p q r Hp Hq Hr. unfold dom_at.
        assert (RW : forall i, i < length objs -> length (nth i objs []) = M /\ no_nans (nth i objs [])) by (intros i Hi; apply TB, nth_In; exact Hi).
        destruct (RW p Hp), (RW q Hq), (RW r Hr). apply (dominates_trans OL); auto; congruence.
      - rewrite resize_length. lia. }
    assert (FL : forall F k, In F fronts -> In k F -> k < length objs).
    { intros F k H1 H2. apply (pf_all _ _ _ PF). apply in_concat. eauto. }
    rewrite EQ, FI.
    match goal with |- context [assign _ _ _ _ _ _ _ ?id _ _] => set (ideal := id) end.
    assert (LI : length ideal = M).
    { unfold ideal. assert (L0 : length (nth i0 objs []) = M) by (apply rows_nth; [exact RO|apply (FL (i0 :: f0)); [rewrite FI|]; left; reflexivity]).
      assert (F0 : forall k, In k f0 -> k < length objs) by (intros k Hk; apply (FL (i0 :: f0)); [rewrite FI; left; reflexivity|right; exact Hk]).
      revert L0 F0. generalize (nth i0 objs []). clear - RO. induction f0 as [|k f IH]; intros a La F0; cbn [fold_left]; [exact La|].
      apply IH; [|intros j Hj; apply F0; right; exact Hj]. unfold vmin2. rewrite map2_length, La, (rows_nth fs); [lia|exact RO|apply F0; left; reflexivity]. }
    rewrite <- FI. destruct (assign fs pw lg solve inf t6 fuel ideal fronts objs) as [sc|] eqn:EA.
    - left. destruct (assign_ok fs pw lg solve inf t6 fuel ideal fronts objs sc LI RO FL (pf_some _ _ _ PF) SV EA) as [A1 A2].
      eexists. split; [reflexivity|]. cbn [g_pop g_objs g_fronts g_tr g_merged].
      match goal with |- context [resize [] n ?l] => set (sorted := l) end.
      assert (PS : Permutation sorted pop) by apply SP.
      assert (LS : n <= length sorted) by (rewrite (Permutation_length PS); lia).
      split; [|split; [|reflexivity]].
      + split; [apply resize_length|]. rewrite resize_firstn by exact LS. intros y Hy.
        assert (Iy : In y sorted) by (rewrite <- (firstn_skipn n sorted); apply in_or_app; left; exact Hy).
        apply (Permutation_in _ PS) in Iy. apply WP. exact Iy.
      + constructor; cbn [g_pop g_objs g_fronts g_tr g_merged]; auto.
        * exists ranks, (s_score sc). split; [apply resize_firstn; exact LS|exact RK].
        * rewrite <- LO. exact PF.
        * exists i0, f0, rest. auto.
        * split; [exact A1|congruence].
    - right. split; [reflexivity|]. exists ideal, fronts, objs. split; [|exact EA].
      intros F HFi. assert (ND := pf_once _ _ _ PF). apply in_split in HFi. destruct HFi as (l1 & l2 & E2).
      rewrite E2, concat_app in ND. cbn in ND. apply nodup_app_r, nodup_app_l in ND.
      assert (I : incl F (seq 0 (length objs))).
      { intros k Hk. apply in_seq. split; [lia|]. cbn. apply (FL F); [rewrite E2; apply in_or_app; right; left; reflexivity|exact Hk]. }
      apply (NoDup_incl_length ND) in I. rewrite seq_length in I. lia.
  Qed.

  Notation generations' := (AGEMOEA.generations n cp di eps eta fs stop pw lg solve inf t14 t10 t6 rnd sortp).
  Lemma generations_cases : forall k fuel gen x s, 4 <= n -> 2 * n + 1 < fuel -> good_pop (g_pop s) ->
    (exists s', generations' k fuel gen lo hi x false s = NRet s' /\
      good_pop (g_pop s') /\ (0 < k -> gafter s') /\ (k = 0 -> s' = s) /\
      gens_tr stop k (g_tr s) (g_tr s') /\ (0 < k -> g_tr s' <> g_tr s)) \/
    (generations' k fuel gen lo hi x false s = NMore /\
     exists ideal fronts objs, (forall F, In F fronts -> length F <= fuel) /\
       assign fs pw lg solve inf t6 fuel ideal fronts objs = None).
  Proof.
    intros k; induction k as [|k IH]; intros fuel gen x s Hn HF GP.
    - left. exists s. cbn [AGEMOEA.generations]. split; [reflexivity|]. split; [exact GP|]. split; [lia|]. split; [reflexivity|].
      split; [|lia]. exists []. split; [reflexivity|]. split; [intros e []|]. split; [cbn; lia|].
      split; [|cbn; lia]. intros e newer older E _ NE LE. exfalso. cbn in E. rewrite E in LE.
      destruct newer; [congruence|]. cbn in LE. rewrite app_length in LE. cbn in LE. lia.
    - cbn [AGEMOEA.generations]. destruct (generation_cases fuel gen x s Hn HF GP) as [(s1 & E1 & G1 & A1 & T1)|[E1 B]].
      2:{ right. rewrite E1. split; [reflexivity|exact B]. }
      rewrite E1. destruct (stop (g_tr s1)) eqn:ST1.
      + left. exists s1. assert (E2 : generations' k fuel (gen + 1) lo hi x true s1 = NRet s1)
          by (destruct k; reflexivity). rewrite E2. split; [reflexivity|]. split; [exact G1|]. split; [auto|]. split; [lia|].
        split; [|intros _; rewrite T1; intros X; apply (f_equal (@length _)) in X; cbn in X; lia].
        exists [NGen x (g_objs s1) (g_fronts s1)]. split; [exact T1|]. split; [intros e [<-|[]]; reflexivity|].
        split; [cbn; lia|]. split; [|intros _; exact ST1].
        intros e newer older E _ NE LE. exfalso. destruct newer as [|a newer]; [congruence|].
        cbn in E. injection E as _ E. rewrite E in LE. rewrite app_length in LE. cbn in LE. lia.
      + destruct (IH fuel (gen + 1) x s1 Hn HF G1) as [(s2 & E2 & G2 & A2 & Z2 & (gs & T2 & I2 & L2 & S2 & F2) & _)|R]; [left|right; exact R].
        exists s2. split; [exact E2|]. split; [exact G2|]. split.
        { intros _. destruct k as [|k]; [rewrite Z2 by reflexivity; exact A1|]. apply A2. lia. }
        split; [lia|]. split.
        2:{ intros _. rewrite T2, T1. intros X. apply (f_equal (@length _)) in X. rewrite app_length in X. cbn in X. lia. }
        exists (gs ++ [NGen x (g_objs s1) (g_fronts s1)]).
        split; [rewrite T2, T1, <- app_assoc; reflexivity|]. split.
        { intros e. rewrite in_app_iff. intros [H|[<-|[]]]; [apply I2; exact H|reflexivity]. }
        split; [rewrite app_length; cbn; lia|]. split.
        { intros e newer older E GE NE LE. rewrite <- app_assoc in E. cbn [app] in E. rewrite <- T1 in E.
          destruct (Nat.lt_ge_cases (length older) (length (g_tr s1))) as [LO|LO].
          - assert (O1 : e :: older = g_tr s1).
            { assert (X : forall (A : Type) (a b c' d' : list A), a ++ b = c' ++ d' -> length b = length d' -> b = d').
              { clear. intros A a; induction a as [|y a IHa]; intros b [|z c'] d' E L; cbn in E.
                - exact E.
                - subst. cbn in L. rewrite app_length in L. lia.
                - subst. cbn in L. rewrite app_length in L. lia.
                - injection E as -> E. eapply IHa; eauto. }
              symmetry. eapply X; [exact E|]. rewrite T1 in LO |- *. cbn in *. lia. }
            rewrite O1. exact ST1.
          - eapply S2; eauto. }
        { rewrite app_length. cbn. intros H. rewrite T2 in F2. rewrite T2. apply F2. lia. }
  Qed.
End Gen.

(** ** the sort and which members survive *)
Section Elite.
  Context {N : Num}.
  Variable OL : OrdLaws N.
  Notation vec := (list N).
  Hypothesis exact : forall a : N, nisnan a = false.

  Lemma nlt_neg_trans : forall a b c : N, nlt a b = false -> nlt b c = false -> nlt a c = false.
  Proof.
    intros a b c H1 H2. apply (ol_total _ OL) in H1; auto. apply (ol_total _ OL) in H2; auto.
    apply (ol_le_not_lt _ OL). eapply (ol_le_trans _ OL); eauto.
  Qed.

  Lemma survival_swo : forall ranks (score : vec) (idx : vec -> nat) l,
    strict_weak (fun p q => survival_operator ranks score (idx p) (idx q)) l.
  Proof.
    intros ranks score idx l. unfold survival_operator. split; [|split].
    - intros a _. rewrite Nat.ltb_irrefl, Nat.eqb_refl, (ol_irrefl _ OL). reflexivity.
    - intros a b c _ _ _. rewrite !orb_true_iff, !andb_true_iff, !Nat.ltb_lt, !Nat.eqb_eq.
      intros [H|[H H']] [G|[G G']].
      + left; lia. + left; lia. + left; lia. + right. split; [lia|]. eapply (ol_trans _ OL); eauto.
    - intros a b c _ _ _. rewrite !orb_false_iff, !andb_false_iff, !Nat.ltb_ge, !Nat.eqb_neq.
      intros [H H'] [G G']. split; [lia|].
      destruct (Nat.eq_dec (nth (idx a) ranks 0) (nth (idx c) ranks 0)) as [E|E]; [|left; exact E].
      right. destruct H' as [H'|H']; [lia|]. destruct G' as [G'|G']; [lia|]. eapply nlt_neg_trans; eauto.
  Qed.

  Lemma sorted_split : forall {A} (R : A -> A -> Prop) k l, StronglySorted R l ->
    forall a b, In a (firstn k l) -> In b (skipn k l) -> R a b.
  Proof.
    intros A R k; induction k as [|k IH]; intros [|x l] S a b Ha Hb; cbn in *; try contradiction.
    inversion S as [|? ? S' Fa]; subst. destruct Ha as [<-|Ha].
    - rewrite Forall_forall in Fa. apply Fa. rewrite <- (firstn_skipn k l). apply in_or_app; right; exact Hb.
    - eapply IH; eauto.
  Qed.

  Lemma find_last_ok : forall eps (pop : list vec) x, In x pop ->
    (forall a : N, nle (nabs (nsub a a)) eps = true) ->
    (forall p q, In p pop -> In q pop -> approx_equal eps p q = true -> p = q) ->
    find_last eps pop x < length pop /\ nth (find_last eps pop x) pop [] = x.
  Proof.
    intros eps pop x Hx HR HE.
    assert (AR : forall y : vec, approx_equal eps y y = true).
    { intros y. unfold approx_equal. apply forallb_forall. intros [a b] H.
      assert (a = b). { clear - H. induction y as [|c y IH]; cbn in H; [contradiction|]. destruct H as [[= <- <-]|H]; auto. }
      subst. apply HR. }
    assert (G : forall l k, (k < length pop /\ nth k pop [] = x \/ exists i, In i l /\ approx_equal eps (nth i pop []) x = true) ->
       (forall i, In i l -> i < length pop) ->
       let r := fold_left (fun k i => if approx_equal eps (nth i pop []) x then i else k) l k in
       r < length pop /\ nth r pop [] = x).
    { intros l; induction l as [|i l IH]; intros k HK HL; cbn [fold_left]; cbv zeta.
      - destruct HK as [H|(i & [] & _)]. exact H.
      - apply IH; [|intros j Hj; apply HL; right; exact Hj].
        assert (Hi : i < length pop) by (apply HL; left; reflexivity).
        destruct (approx_equal eps (nth i pop []) x) eqn:E.
        + left. split; [exact Hi|]. apply HE; [apply nth_In; exact Hi|exact Hx|exact E].
        + destruct HK as [HK|(j & [<-|Hj] & Ej)]; [left; exact HK|congruence|right; eauto]. }
    unfold find_last. apply G.
    - right. apply In_nth with (d := []) in Hx. destruct Hx as (i & Hi & E). exists i. split; [apply in_seq; lia|].
      rewrite E. apply AR.
    - intros i Hi. apply in_seq in Hi. lia.
  Qed.

  Lemma elite : forall n eps fs (merged : list vec) fronts ranks (score : vec) sortp,
    is_sort sortp -> (forall a : N, nle (nabs (nsub a a)) eps = true) ->
    (forall p q, In p merged -> In q merged -> approx_equal eps p q = true -> p = q) ->
    pareto_fronts (length merged) (beats (map (objv fs) merged)) fronts ->
    (forall k i, in_front fronts k i -> nth_error ranks i = Some k) ->
    let kept := firstn n (sortp (fun p q => survival_operator ranks score (find_last eps merged p) (find_last eps merged q)) merged) in
    exists dropped, Permutation (kept ++ dropped) merged /\
      forall p q, In p kept -> In q dropped -> ~ Dominates (objv fs q) (objv fs p).
  Proof.
    intros n eps fs merged fronts ranks score sortp [SP SS] HR HE PF RK. cbv zeta.
    set (c := fun p q => survival_operator ranks score (find_last eps merged p) (find_last eps merged q)).
    exists (skipn n (sortp c merged)). rewrite firstn_skipn. split; [apply SP|].
    intros p q Hp Hq D.
    assert (Sd := SS c merged (survival_swo ranks score (find_last eps merged) merged)).
    assert (C := sorted_split _ n _ Sd p q Hp Hq). cbn in C.
    assert (Ip : In p merged) by (apply (Permutation_in _ (SP c merged)); rewrite <- (firstn_skipn n (sortp c merged)); apply in_or_app; auto).
    assert (Iq : In q merged) by (apply (Permutation_in _ (SP c merged)); rewrite <- (firstn_skipn n (sortp c merged)); apply in_or_app; auto).
    destruct (find_last_ok eps merged p Ip HR HE) as [Lp Np]. destruct (find_last_ok eps merged q Iq HR HE) as [Lq Nq].
    set (ip := find_last eps merged p) in *. set (iq := find_last eps merged q) in *.
    destruct (front_ex _ _ _ _ PF Lp) as [k Hk].
    assert (B : beats (map (objv fs) merged) iq ip).
    { exists (objv fs q), (objv fs p). rewrite !nth_error_map.
      rewrite (nth_error_nth' merged [] Lq), (nth_error_nth' merged [] Lp), Np, Nq. auto. }
    destruct (pf_before _ _ _ PF k ip iq Hk Lq B) as (k' & Lk & Hk').
    apply RK in Hk. apply RK in Hk'. unfold c, survival_operator in C. fold ip iq in C.
    rewrite (nth_error_nth _ _ _ Hk), (nth_error_nth _ _ _ Hk') in C.
    apply Nat.ltb_lt in Lk. rewrite Lk in C. discriminate.
  Qed.
End Elite.

Section Run.
  Context {N : Num}.
  Variable OL : OrdLaws N.
  Notation vec := (list N).

  Lemma optimize_cases : forall n maxGen (cp di eps eta : N) (lb ub : vec) fs stop pw lg solve inf t14 t10 t6 init rnd sortp fuel x,
    age_good n maxGen lb ub fs init rnd sortp x ->
    (forall l v, solve l = Some v -> length v = length fs) -> 2 * n + 1 < fuel ->
    match AGEMOEA.optimize n maxGen cp di eps eta lb ub fs stop pw lg solve inf t14 t10 t6 init rnd sortp fuel x with
    | NRet r => age_reported n maxGen lb ub fs stop x r /\
        exists fronts ranks (score : vec),
          pareto_fronts (length (q_merged r)) (beats (map (objv fs) (q_merged r))) fronts /\
          (forall k i, in_front fronts k i -> nth_error ranks i = Some k) /\
          q_set r = firstn n (sortp (fun p q => survival_operator ranks score (find_last eps (q_merged r) p) (find_last eps (q_merged r) q)) (q_merged r))
    | NBad => True
    | NMore => exists ideal fronts objs, (forall F, In F fronts -> length F <= fuel) /\
                 assign fs pw lg solve inf t6 fuel ideal fronts objs = None
    | NThrow => False
    end.
  Proof.
    intros n maxGen cp di eps eta lb ub fs stop pw lg solve inf t14 t10 t6 init rnd sortp fuel x [Gn Gg Gb Gi Gd Gnan Gs] SV HF.
    unfold AGEMOEA.optimize. replace (Nat.ltb n 4) with false by (symmetry; apply Nat.ltb_ge; exact Gn). cbn [andb].
    set (lo := spread (length x) lb) in *. set (hi := spread (length x) ub) in *.
    destruct Gb as (B1 & B2 & B3).
    match goal with |- context [AGEMOEA.generations _ _ _ _ _ _ _ _ _ _ _ _ _ _ _ _ _ _ _ _ _ _ _ ?z] => set (s0 := z) end.
    destruct (generations_cases OL n cp di eps eta lo hi (length x) (conj B1 (conj B2 B3)) fs Gnan stop pw lg solve SV inf t14 t10 t6 rnd Gd sortp Gs
                maxGen fuel 1 x s0 Gn HF) as [(s & E & [GL GW] & A & _ & (gs & T & I & L & S & F) & TN)|[E B]].
    { split; [unfold s0; cbn; rewrite map_length, seq_length; reflexivity|].
      unfold s0; cbn [g_pop]. intros p Hp. apply in_map_iff in Hp. destruct Hp as (i & <- & _).
      apply (clip_within OL); [lia| |exact B3]. unfold vadd. rewrite map2_length, map_length, Gi. lia. }
    2:{ rewrite E. exact B. }
    rewrite E. destruct (A ltac:(lia)) as [ALen AIn (ranks & score & APop & ARk) AF (i & f & rest & AFi & Asc) [ARows AL]].
    rewrite AFi. cbv zeta.
    assert (ER : forall (a b : list vec), (forall k, nth_error a k = nth_error b k) -> a = b).
    { clear. intros a; induction a as [|u a IH]; intros [|v b] X; auto; try (specialize (X 0); discriminate).
      assert (X0 := X 0). cbn in X0. injection X0 as ->. f_equal. apply IH. intros k. apply (X (S k)). }
    destruct (evaluate_ok n fs 0 (g_pop s) (g_objs s) 0) as (V1 & V2 & _).
    { intros k row H. cbn. eapply ARows; eauto. }
    cbv zeta in V1, V2. rewrite GL.
    set (objs := fst (evaluate n fs 0 (g_pop s) (g_objs s, 0))) in *.
    assert (FRONT : firstn n objs = map (objv fs) (g_pop s)).
    { apply ER. intros k. rewrite nth_error_map. destruct (Nat.lt_ge_cases k n) as [Hk|Hk].
      - assert (X : nth_error (firstn n objs) k = nth_error objs k).
        { rewrite <- (firstn_skipn n objs) at 2. symmetry. apply nth_error_app1. rewrite firstn_length. lia. }
        rewrite X. destruct (nth_error (g_objs s) k) as [row|] eqn:Er; [|apply nth_error_None in Er; lia].
        rewrite (V2 _ _ Er). unfold row_after. apply Nat.ltb_lt in Hk. rewrite Hk. cbn [firstn app].
        apply Nat.ltb_lt in Hk. rewrite (nth_error_nth' (g_pop s) []) by lia. reflexivity.
      - rewrite (proj2 (nth_error_None _ _)) by (rewrite firstn_length; lia).
        rewrite (proj2 (nth_error_None (g_pop s) _)) by lia. reflexivity. }
    destruct (nth_error (g_pop s) i) as [xf|] eqn:EX; [|exact Logic.I].
    split; [|exists (g_fronts s), ranks, score; cbn [q_merged q_set]; auto].
    unfold age_reported. cbn [q_set q_front q_x q_val q_merged q_tr]. fold lo hi.
    split; [exact GL|]. split.
    { exists (skipn n (sortp (fun p q => survival_operator ranks score (find_last eps (g_merged s) p) (find_last eps (g_merged s) q)) (g_merged s))).
      rewrite APop at 1. rewrite firstn_skipn. apply Gs. }
    split; [exact FRONT|]. split.
    { intros p [<-|Hp]; [apply GW; eapply nth_error_In; eauto|]. apply in_app_or in Hp. destruct Hp; [apply GW|apply AIn]; assumption. }
    assert (F0 : forall j, In j (i :: f) <-> in_front (g_fronts s) 0 j).
    { intros j. unfold in_front. rewrite AFi. cbn. split; [eauto|]. intros (G & [= <-] & H). exact H. }
    split.
    { exists i. split; [|exact EX].
      assert (Z : forall j, in_front (g_fronts s) 0 j <-> best_in fs (g_merged s) j).
      { intros j. assert (L0 : 0 < length (g_merged s)) by lia. rewrite (front_zero _ _ _ L0 AF). unfold best_in. split.
        - intros [H1 H2]. split; [exact H1|]. intros q B. apply (H2 q); [|exact B].
          destruct B as (P & Q & EP & _). rewrite <- (map_length (objv fs)). apply nth_error_Some. congruence.
        - intros [H1 H2]. split; [exact H1|]. intros q _. apply H2. }
      split; [apply Z, F0; left; reflexivity|]. intros j Hj B. apply Z, F0, Asc in B. lia. }
    split.
    { destruct (performance_ok OL objs nmax) as [P1 _]. cbv zeta in P1. fold (performance objs) in P1.
      intros p Hp. apply P1. assert (In (objv fs p) (firstn n objs)) by (rewrite FRONT; apply in_map; exact Hp).
      rewrite <- (firstn_skipn n objs). apply in_or_app; left; assumption. }
    exists gs. unfold s0 in T, S, TN. cbn [g_tr] in T, S, TN. split.
    { cbn [rev]. rewrite T, rev_app_distr. cbn. reflexivity. }
    split; [exact I|]. split.
    { split; [|exact L]. destruct gs; [|cbn; lia]. exfalso. apply TN; [lia|exact T]. }
    split.
    - intros e newer older Eg NE.
      apply (S e newer (older ++ [NBegin x])); [rewrite Eg, <- app_assoc; reflexivity| |exact NE|rewrite app_length; cbn; lia].
      apply I. rewrite Eg. apply in_or_app. right; left; reflexivity.
    - rewrite T in F. exact F.
  Qed.

  Lemma optimize_report : forall n maxGen (cp di eps eta : N) (lb ub : vec) fs stop pw lg solve inf t14 t10 t6 init rnd sortp fuel x r,
    age_good n maxGen lb ub fs init rnd sortp x ->
    (forall l v, solve l = Some v -> length v = length fs) -> 2 * n + 1 < fuel ->
    AGEMOEA.optimize n maxGen cp di eps eta lb ub fs stop pw lg solve inf t14 t10 t6 init rnd sortp fuel x = NRet r ->
    age_reported n maxGen lb ub fs stop x r.
  Proof.
    intros n maxGen cp di eps eta lb ub fs stop pw lg solve inf t14 t10 t6 init rnd sortp fuel x r G SV HF E.
    assert (H := optimize_cases n maxGen cp di eps eta lb ub fs stop pw lg solve inf t14 t10 t6 init rnd sortp fuel x G SV HF).
    rewrite E in H. tauto.
  Qed.

  Lemma optimize_ends : forall n maxGen (cp di eps eta : N) (lb ub : vec) fs stop pw lg solve inf t14 t10 t6 init rnd sortp fuel x,
    age_good n maxGen lb ub fs init rnd sortp x ->
    (forall l v, solve l = Some v -> length v = length fs) -> 2 * n + 1 < fuel ->
    score_laws inf -> (forall o fr p i j, nlt (pairwise pw o fr p i j) n0 = false) ->
    (exists r, AGEMOEA.optimize n maxGen cp di eps eta lb ub fs stop pw lg solve inf t14 t10 t6 init rnd sortp fuel x = NRet r) \/
    AGEMOEA.optimize n maxGen cp di eps eta lb ub fs stop pw lg solve inf t14 t10 t6 init rnd sortp fuel x = NBad.
  Proof.
    intros n maxGen cp di eps eta lb ub fs stop pw lg solve inf t14 t10 t6 init rnd sortp fuel x G SV HF SL HD.
    assert (H := optimize_cases n maxGen cp di eps eta lb ub fs stop pw lg solve inf t14 t10 t6 init rnd sortp fuel x G SV HF).
    destruct (AGEMOEA.optimize _ _ _ _ _ _ _ _ _ _ _ _ _ _ _ _ _ _ _ _ _ _) as [r| | |]; [eauto|destruct H|auto|].
    destruct H as (ideal & fronts & objs & HL & E). exfalso. eapply (assign_ends OL fs pw lg solve inf t6 SL); eauto.
  Qed.

  Lemma optimize_elite : (forall a : N, nisnan a = false) ->
    forall n maxGen (cp di eps eta : N) (lb ub : vec) fs stop pw lg solve inf t14 t10 t6 init rnd sortp fuel x r,
    age_good n maxGen lb ub fs init rnd sortp x ->
    (forall l v, solve l = Some v -> length v = length fs) -> 2 * n + 1 < fuel ->
    is_sort sortp -> (forall a : N, nle (nabs (nsub a a)) eps = true) ->
    AGEMOEA.optimize n maxGen cp di eps eta lb ub fs stop pw lg solve inf t14 t10 t6 init rnd sortp fuel x = NRet r ->
    (forall p q, In p (q_merged r) -> In q (q_merged r) -> approx_equal eps p q = true -> p = q) ->
    exists dropped, Permutation (q_set r ++ dropped) (q_merged r) /\
      forall p q, In p (q_set r) -> In q dropped -> ~ Dominates (objv fs q) (objv fs p).
  Proof.
    intros EX n maxGen cp di eps eta lb ub fs stop pw lg solve inf t14 t10 t6 init rnd sortp fuel x r G SV HF IS HR E HE.
    assert (H := optimize_cases n maxGen cp di eps eta lb ub fs stop pw lg solve inf t14 t10 t6 init rnd sortp fuel x G SV HF).
    rewrite E in H. destruct H as (_ & fronts & ranks & score & PF & RK & ->).
    eapply (elite OL EX); eauto.
  Qed.
End Run.
