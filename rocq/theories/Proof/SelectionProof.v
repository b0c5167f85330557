(** Crowding distances of NSGA-II. *)
From Coq Require Import List Arith Bool Reals Lra Lia Permutation Sorted.
From Verif.Base Require Import Num Vec Instances.
From Verif.Model Require Import SA NSGA2.
From Verif.Spec Require Import ParetoSpec NSGA2Spec AGEMOEASpec SelectionSpec.
From Verif.Proof Require Import SAProof RankProof ParetoProof AGEMOEARun.
Import ListNotations.
Local Open Scope R_scope.

Lemma fold_add : forall (g : nat -> nat) (h : nat -> R) l (cd : list R),
  NoDup (map g l) -> (forall i, In i l -> (g i < length cd)%nat) ->
  let cd' := fold_left (fun cd i => set_nth (g i) (nth (g i) cd 0 + h i) cd) l cd in
  length cd' = length cd /\
  (forall i, In i l -> nth (g i) cd' 0 = nth (g i) cd 0 + h i) /\
  (forall k, ~ In k (map g l) -> nth k cd' 0 = nth k cd 0).
Proof.
  intros g h l. induction l as [|a l IH]; intros cd ND LT; cbn [fold_left map] in *; cbv zeta.
  - split; [reflexivity|]. split; [intros i []|reflexivity].
  - inversion ND as [|? ? N1 N2]; subst.
    destruct (IH (set_nth (g a) (nth (g a) cd 0 + h a) cd)) as (L & I & O).
    { exact N2. }
    { intros i Hi. rewrite set_nth_len. apply LT. right; exact Hi. }
    cbv zeta in L, I, O. rewrite set_nth_len in L. split; [exact L|]. split.
    + intros i [<-|Hi].
      * rewrite O by exact N1. rewrite set_nth_hit; [reflexivity|apply LT; left; reflexivity].
      * rewrite I by exact Hi. rewrite set_nth_miss; [reflexivity|].
        intros E. apply N1. rewrite E. apply in_map. exact Hi.
    + intros k Hk. cbn [In] in Hk. rewrite O by tauto. rewrite set_nth_miss; [reflexivity|tauto].
Qed.

Lemma map_nth_seq : forall (F : list nat), map (fun k => nth k F 0%nat) (seq 0 (length F)) = F.
Proof.
  intros F. induction F as [|a F IH]; [reflexivity|]. cbn [length seq map]. f_equal.
  rewrite <- seq_shift, map_map. cbn [nth]. exact IH.
Qed.

Lemma fold_left_ext_in : forall {A B} (f g : A -> B -> A) l a, (forall a b, In b l -> f a b = g a b) ->
  fold_left f l a = fold_left g l a.
Proof.
  intros A B f g l; induction l as [|b l IH]; intros a H; cbn; [reflexivity|].
  rewrite H by (left; reflexivity). apply IH. intros a' b' Hb. apply H. right; exact Hb.
Qed.

Lemma nodup_map_inj : forall {A B} (f : A -> B) l, (forall a b, In a l -> In b l -> f a = f b -> a = b) -> NoDup l -> NoDup (map f l).
Proof.
  intros A B f l H ND. induction ND as [|a l NI ND IH]; cbn; constructor.
  - intros Hin. apply in_map_iff in Hin. destruct Hin as (b & E & Hb). apply H in E; [subst; tauto|right; exact Hb|left; reflexivity].
  - apply IH. intros x y Hx Hy. apply H; right; assumption.
Qed.

Section Crowd.
  Variable mx : R.
  Notation RN := (RNum mx).
  Variable mx_pos : 0 < mx.
  Variable sorti : (nat -> nat -> bool) -> list nat -> list nat.
  Hypothesis sort_ok : is_sort sorti.

  Lemma nlt_false : forall a b : R, nlt (n := RN) a b = false -> b <= a.
  Proof. intros a b. cbn. unfold Rltb. destruct (Rlt_dec a b); [discriminate|]. intros _. lra. Qed.

  Lemma val_swo : forall (v : nat -> R) l, strict_weak (fun a b => nlt (n := RN) (v a) (v b)) l.
  Proof.
    intros v l. cbn. unfold Rltb. split; [|split]; intros; repeat destruct Rlt_dec; try congruence; exfalso; lra.
  Qed.

  (** the front in the order of objective m *)
  Lemma order_front : forall (objs : list (list R)) (M m : nat) F idx,
    (m < M)%nat -> tie_free objs M F -> NoDup F -> Permutation idx (seq 0 (length F)) ->
    let idx' := sorti (fun a b => nlt (n := RN) (fval objs m (nth a F 0%nat)) (fval objs m (nth b F 0%nat))) idx in
    let G := map (fun k => nth k F 0%nat) idx' in
    Permutation idx' (seq 0 (length F)) /\ Permutation G F /\
    (forall p q, (p < q)%nat -> (q < length F)%nat -> fval objs m (nth p G 0%nat) < fval objs m (nth q G 0%nat)).
  Proof.
    intros objs M m F idx Hm TF ND PI. cbv zeta. destruct sort_ok as [SP SS].
    set (c := fun a b => nlt (n := RN) (fval objs m (nth a F 0%nat)) (fval objs m (nth b F 0%nat))).
    assert (P1 : Permutation (sorti c idx) (seq 0 (length F))) by (rewrite SP; exact PI).
    assert (P2 : Permutation (map (fun k => nth k F 0%nat) (sorti c idx)) F).
    { eapply Permutation_trans; [apply Permutation_map; exact P1|]. rewrite map_nth_seq. apply Permutation_refl. }
    split; [exact P1|]. split; [exact P2|].
    assert (S := SS c idx (val_swo _ _)).
    set (G := map (fun k => nth k F 0%nat) (sorti c idx)) in *.
    assert (NG : NoDup G) by (eapply Permutation_NoDup; [symmetry; exact P2|exact ND]).
    assert (LG : length G = length F) by (apply Permutation_length; exact P2).
    assert (SG : StronglySorted (fun a b => fval objs m a <= fval objs m b) G).
    { unfold G. clear - S. induction S as [|a l S IH Fa]; cbn; [constructor|]. constructor; [exact IH|].
      rewrite Forall_forall in *. intros b Hb. apply in_map_iff in Hb. destruct Hb as (k & <- & Hk).
      apply nlt_false. exact (Fa k Hk). }
    intros p q Hpq Hq.
    assert (LE : fval objs m (nth p G 0%nat) <= fval objs m (nth q G 0%nat)).
    { rewrite <- LG in Hq. clear - SG Hpq Hq. revert p q Hpq Hq.
      induction SG as [|a l S IH Fa]; intros p q Hpq Hq; cbn in Hq; [lia|].
      destruct q as [|q]; [lia|]. destruct p as [|p]; cbn [nth].
      - rewrite Forall_forall in Fa. apply Fa. apply nth_In. lia.
      - apply IH; lia. }
    destruct (Rle_lt_or_eq_dec _ _ LE) as [H|H]; [exact H|]. exfalso.
    assert (E : nth p G 0%nat = nth q G 0%nat).
    { apply (TF m); auto; apply (Permutation_in _ P2); apply nth_In; lia. }
    assert (p = q) by (eapply (proj1 (NoDup_nth G 0%nat)); eauto; lia). lia.
  Qed.

  Lemma crowd_one_ok : forall (M : nat) (objs : list (list R)) F m (cd : list R) idx,
    (m < M)%nat -> F <> [] -> tie_free objs M F -> NoDup F -> (forall i, In i F -> (i < length cd)%nat) ->
    Permutation idx (seq 0 (length F)) ->
    forall cd' idx', crowd_one (N := RN) sorti objs F (cd, idx) m = (cd', idx') ->
    Permutation idx' (seq 0 (length F)) /\ length cd' = length cd /\
    (forall k, ~ In k F -> nth k cd' 0 = nth k cd 0) /\
    (forall i, In i F -> extreme objs F m i /\ nth i cd' 0 = mx \/
       ~ extreme objs F m i /\ exists g, gap objs F m i g /\ 0 < g /\ nth i cd' 0 = nth i cd 0 + g).
  Proof.
    intros M objs F m cd idx Hm NE TF ND LT PI cd' idx' E. unfold crowd_one in E.
    destruct (order_front objs M m F idx Hm TF ND PI) as (P1 & P2 & ST). cbv zeta in P1, P2, ST.
    change (fun a b : nat => nlt (n := RN) (nth m (nth (nth a F 0%nat) objs []) (n0 (n := RN))) (nth m (nth (nth b F 0%nat) objs []) (n0 (n := RN))))
      with (fun a b : nat => nlt (n := RN) (fval objs m (nth a F 0%nat)) (fval objs m (nth b F 0%nat))) in E.
    set (si := sorti (fun a b : nat => nlt (n := RN) (fval objs m (nth a F 0%nat)) (fval objs m (nth b F 0%nat))) idx) in *.
    set (G := map (fun k => nth k F 0%nat) si) in *.
    assert (Lsi : length si = length F) by (rewrite (Permutation_length P1); apply seq_length).
    assert (LG : length G = length F) by (apply Permutation_length; exact P2).
    assert (NG : NoDup G) by (eapply Permutation_NoDup; [symmetry; exact P2|exact ND]).
    set (n := length F) in *.
    assert (Hn : (0 < n)%nat) by (unfold n; destruct F; [congruence|cbn; lia]).
    assert (AT : forall k, (k < n)%nat -> nth (nth k si 0%nat) F 0%nat = nth k G 0%nat).
    { intros k Hk. symmetry. etransitivity; [|exact (map_nth (fun k => nth k F 0%nat) si 0%nat k)].
      apply nth_indep. change (k < length G)%nat. lia. }
    assert (GF : forall k, (k < n)%nat -> In (nth k G 0%nat) F) by (intros k Hk; apply (Permutation_in _ P2); apply nth_In; lia).
    assert (GI : forall p q, (p < n)%nat -> (q < n)%nat -> nth p G 0%nat = nth q G 0%nat -> p = q).
    { intros p q Hp Hq H. eapply (proj1 (NoDup_nth G 0%nat)); eauto; lia. }
    assert (LEG : forall p q, (p <= q)%nat -> (q < n)%nat -> fval objs m (nth p G 0%nat) <= fval objs m (nth q G 0%nat)).
    { intros p q Hpq Hq. destruct (Nat.eq_dec p q) as [->|H]; [lra|]. left. apply ST; lia. }
    assert (FG : forall i, In i F -> exists p, (p < n)%nat /\ nth p G 0%nat = i).
    { intros i Hi. apply (Permutation_in _ (Permutation_sym P2)) in Hi. apply In_nth with (d := 0%nat) in Hi.
      destruct Hi as (p & Hp & Ep). exists p. split; [lia|exact Ep]. }
    change (nth m (nth (nth (nth (n - 1) si 0%nat) F 0%nat) objs []) (n0 (n := RN))) with (fval objs m (nth (nth (n - 1) si 0%nat) F 0%nat)) in E.
    change (nth m (nth (nth (nth 0 si 0%nat) F 0%nat) objs []) (n0 (n := RN))) with (fval objs m (nth (nth 0 si 0%nat) F 0%nat)) in E.
    rewrite !AT in E by lia.
    match type of E with context [if neq ?r ?z then _ else _] => set (scale := if neq r z then n1 (n := RN) else r) in E end.
    injection E as E <-. split; [exact P1|].
    set (h := fun i : nat => (fval objs m (nth (i + 1) G 0%nat) - fval objs m (nth (i - 1) G 0%nat)) / scale).
    set (cd0 := set_nth (nth (n - 1) G 0%nat) mx (set_nth (nth 0 G 0%nat) mx cd)).
    assert (L0 : length cd0 = length cd) by (unfold cd0; rewrite !set_nth_len; reflexivity).
    destruct (fold_add (fun i => nth i G 0%nat) h (seq 1 (n - 2)) cd0) as (L & I & O).
    { apply nodup_map_inj; [|apply seq_NoDup]. intros a b Ha Hb. apply in_seq in Ha, Hb. apply GI; lia. }
    { intros i Hi. apply in_seq in Hi. rewrite L0. apply LT. apply GF. lia. }
    cbv zeta in L, I, O.
    assert (EQ : fold_left (fun cd i => set_nth (nth i G 0%nat) (nth (nth i G 0%nat) cd 0 + h i) cd) (seq 1 (n - 2)) cd0 = cd').
    { rewrite <- E. apply fold_left_ext_in. intros c i Hi. apply in_seq in Hi. rewrite !AT by lia. reflexivity. }
    rewrite EQ in L, I, O. split; [exact (eq_trans L L0)|]. split.
    - intros k Hk. rewrite O.
      + unfold cd0. rewrite !set_nth_miss; [reflexivity| |]; intros <-; apply Hk; apply GF; lia.
      + intros Hin. apply in_map_iff in Hin. destruct Hin as (p & <- & Hp). apply in_seq in Hp. apply Hk. apply GF. lia.
    - intros i Hi. destruct (FG i Hi) as (p & Hp & Ep). subst i.
      destruct (Nat.eq_dec p 0) as [Z|Z]; [|destruct (Nat.eq_dec p (n - 1)) as [Y|Y]].
      + left. split.
        * left. intros j Hj. destruct (FG j Hj) as (q & Hq & <-). apply LEG; lia.
        * rewrite O.
          -- subst p. unfold cd0. destruct (Nat.eq_dec (nth (n - 1) G 0%nat) (nth 0 G 0%nat)) as [e|e].
             ++ rewrite e. apply set_nth_hit. rewrite set_nth_len. apply LT. exact Hi.
             ++ rewrite set_nth_miss by exact e. apply set_nth_hit. apply LT. exact Hi.
          -- intros Hin. apply in_map_iff in Hin. destruct Hin as (q & Eq & Hq). apply in_seq in Hq. apply GI in Eq; lia.
      + left. split.
        * right. intros j Hj. destruct (FG j Hj) as (q & Hq & <-). apply LEG; lia.
        * rewrite O.
          -- subst p. unfold cd0. apply set_nth_hit. rewrite set_nth_len. apply LT. exact Hi.
          -- intros Hin. apply in_map_iff in Hin. destruct Hin as (q & Eq & Hq). apply in_seq in Hq. apply GI in Eq; lia.
      + right.
        assert (B1 := ST (p - 1)%nat p ltac:(lia) ltac:(lia)). assert (B2 := ST p (p + 1)%nat ltac:(lia) ltac:(lia)).
        assert (B0 := LEG 0%nat (p - 1)%nat ltac:(lia) ltac:(lia)). assert (B3 := LEG (p + 1)%nat (n - 1)%nat ltac:(lia) ltac:(lia)).
        assert (SC : scale = fval objs m (nth (n - 1) G 0%nat) - fval objs m (nth 0 G 0%nat)).
        { unfold scale. cbn. unfold Reqb. rewrite Rabs_right by lra. destruct Req_EM_T; [lra|reflexivity]. }
        split.
        { intros [H|H].
          - assert (H1 := H (nth (p - 1) G 0%nat) (GF (p - 1)%nat ltac:(lia))). lra.
          - assert (H1 := H (nth (p + 1) G 0%nat) (GF (p + 1)%nat ltac:(lia))). lra. }
        exists (h p). split; [|split].
        * exists (nth (p - 1) G 0%nat), (nth (p + 1) G 0%nat), (nth 0 G 0%nat), (nth (n - 1) G 0%nat).
          split; [apply GF; lia|]. split; [apply GF; lia|]. split; [apply GF; lia|]. split; [apply GF; lia|].
          split; [split; assumption|]. split; [|split; [|split]].
          -- intros j Hj. destruct (FG j Hj) as (q & Hq & <-). destruct (le_lt_dec p q); [right|left]; apply LEG; lia.
          -- intros j Hj. destruct (FG j Hj) as (q & Hq & <-). destruct (le_lt_dec q p); [left|right]; apply LEG; lia.
          -- intros j Hj. destruct (FG j Hj) as (q & Hq & <-). split; apply LEG; lia.
          -- unfold h. rewrite SC. reflexivity.
        * unfold h. rewrite SC. apply Rdiv_lt_0_compat; lra.
        * etransitivity; [exact (I p (proj2 (in_seq (n - 2) 1 p) ltac:(lia)))|]. apply (f_equal (fun a => a + h p)). unfold cd0.
          rewrite !set_nth_miss; [reflexivity| |]; intros Eq; apply GI in Eq; lia.
  Qed.

  Lemma fold_right_snoc : forall gs g, fold_right Rplus 0 (gs ++ [g]) = fold_right Rplus 0 gs + g.
  Proof. intros gs g. induction gs as [|a gs IH]; cbn; [lra|]. rewrite IH. lra. Qed.

  (** the invariant of the loop over the objectives *)
  Lemma crowd_fold : forall (M : nat) (objs : list (list R)) F (cd0 : list R),
    F <> [] -> tie_free objs M F -> NoDup F -> (forall i, In i F -> (i < length cd0)%nat) ->
    (forall i, In i F -> nth i cd0 0 = 0) ->
    forall m, (m <= M)%nat ->
    let st := fold_left (crowd_one (N := RN) sorti objs F) (seq 0 m) (cd0, seq 0 (length F)) in
    Permutation (snd st) (seq 0 (length F)) /\ length (fst st : list R) = length cd0 /\
    (forall k, ~ In k F -> nth k (fst st : list R) 0 = nth k cd0 0) /\
    (forall i, In i F -> crowding_distance mx objs m F i (nth i (fst st : list R) 0) /\ ((0 < m)%nat -> 0 < nth i (fst st : list R) 0)).
  Proof.
    intros M objs F cd0 NE TF ND LT Z m. induction m as [|m IH]; intros Hm; cbv zeta.
    - cbn [seq fold_left fst snd]. split; [apply Permutation_refl|]. split; [reflexivity|]. split; [reflexivity|].
      intros i Hi. split; [|intros H; lia]. right. split; [intros k Hk; lia|]. exists []. split; [reflexivity|].
      split; [intros k Hk; lia|]. rewrite (Z i Hi). reflexivity.
    - rewrite seq_S, fold_left_app. cbn [Nat.add fold_left]. specialize (IH ltac:(lia)). cbv zeta in IH.
      destruct (fold_left (crowd_one (N := RN) sorti objs F) (seq 0 m) (cd0, seq 0 (length F))) as [cd idx] eqn:Est.
      cbn [fst snd] in IH. destruct IH as (P & L & O & I).
      destruct (crowd_one (N := RN) sorti objs F (cd, idx) m) as [cd' idx'] eqn:E. cbn [fst snd].
      assert (LT' : forall i, In i F -> (i < @length R cd)%nat) by (intros i Hi; rewrite L; apply LT; exact Hi).
      destruct (crowd_one_ok M objs F m cd idx ltac:(lia) NE TF ND LT' P cd' idx' E) as (P' & L' & O' & I').
      split; [exact P'|]. split; [exact (eq_trans L' L)|]. split; [intros k Hk; rewrite O' by exact Hk; apply O; exact Hk|].
      intros i Hi. destruct (I i Hi) as [C Q].
      destruct (I' i Hi) as [[X E1]|[X (g & Gg & Pg & E1)]].
      + split.
        * left. split; [exists m; split; [lia|exact X]|]. right. symmetry. exact E1.
        * intros _. eapply Rlt_le_trans; [exact mx_pos|]. right. symmetry. exact E1.
      + assert (Q' : 0 <= nth i (cd : list R) 0).
        { destruct m as [|m]; [|left; apply Q; lia].
          destruct C as [[(k & Hk & _) _]|(_ & gs & Lg & _ & C)]; [lia|]. destruct gs; [|discriminate]. right. symmetry. exact C. }
        split.
        * destruct C as [[(k & Hk & Xk) Cm]|(NX & gs & Lg & Hg & C)].
          -- left. split; [exists k; split; [lia|exact Xk]|].
             eapply Rle_trans; [|right; symmetry; exact E1]. lra.
          -- right. split.
             { intros k Hk. destruct (Nat.eq_dec k m) as [->|Hne]; [exact X|apply NX; lia]. }
             exists (gs ++ [g]). split; [rewrite app_length, Lg; cbn; lia|]. split.
             { intros k Hk. destruct (Nat.eq_dec k m) as [->|Hne].
               - rewrite app_nth2 by lia. rewrite Lg, Nat.sub_diag. exact Gg.
               - rewrite app_nth1 by lia. apply Hg. lia. }
             rewrite fold_right_snoc, <- C. exact E1.
        * intros _. eapply Rlt_le_trans; [|right; symmetry; exact E1]. lra.
  Qed.

  (** one front *)
  Lemma crowding_ok : forall (fs : list (list R -> R)) (objs : list (list R)) F (cd : list R),
    F <> [] -> tie_free objs (length fs) F -> NoDup F -> (forall i, In i F -> (i < length cd)%nat) ->
    (forall i, In i F -> nth i cd 0 = 0) ->
    let cd' := crowding (N := RN) fs sorti objs cd F : list R in
    length cd' = length cd /\ (forall k, ~ In k F -> nth k cd' 0 = nth k cd 0) /\
    (forall i, In i F -> crowding_distance mx objs (length fs) F i (nth i cd' 0) /\ (fs <> [] -> 0 < nth i cd' 0)).
  Proof.
    intros fs objs F cd NE TF ND LT Z. cbv zeta. unfold crowding.
    destruct (crowd_fold (length fs) objs F cd NE TF ND LT Z (length fs) (le_n _)) as (_ & L & O & I). cbv zeta in L, O, I.
    split; [exact L|]. split; [exact O|]. intros i Hi. destruct (I i Hi) as [C P]. split; [exact C|].
    intros Hf. apply P. destruct fs; [congruence|cbn; lia].
  Qed.

  (** all fronts *)
  Lemma crowding_fronts : forall (fs : list (list R -> R)) (objs : list (list R)) fronts (cd : list R),
    (forall F, In F fronts -> F <> []) -> NoDup (concat fronts) ->
    (forall F, In F fronts -> tie_free objs (length fs) F) ->
    (forall i, In i (concat fronts) -> (i < length cd)%nat) -> (forall i, In i (concat fronts) -> nth i cd 0 = 0) ->
    let cd' := fold_left (crowding (N := RN) fs sorti objs) fronts cd : list R in
    length cd' = length cd /\ (forall k, ~ In k (concat fronts) -> nth k cd' 0 = nth k cd 0) /\
    (forall F i, In F fronts -> In i F -> crowding_distance mx objs (length fs) F i (nth i cd' 0) /\ (fs <> [] -> 0 < nth i cd' 0)).
  Proof.
    intros fs objs fronts. induction fronts as [|F fronts IH]; intros cd NE ND TF LT Z; cbn [fold_left concat] in *; cbv zeta.
    - split; [reflexivity|]. split; [reflexivity|]. intros F i [].
    - assert (ND1 := ParetoProof.nodup_app_l _ _ ND). assert (ND2 := ParetoProof.nodup_app_r _ _ ND).
      assert (DJ : forall i, In i F -> ~ In i (concat fronts)).
      { intros i H1 H2. clear - ND H1 H2. induction F as [|a F IHF]; [destruct H1|]. cbn in ND. inversion ND; subst.
        destruct H1 as [<-|H1]; [apply H3; apply in_or_app; right; exact H2|apply IHF; assumption]. }
      destruct (crowding_ok fs objs F cd) as (L1 & O1 & I1).
      { apply NE; left; reflexivity. } { apply TF; left; reflexivity. } { exact ND1. }
      { intros i Hi. apply LT. apply in_or_app; left; exact Hi. }
      { intros i Hi. apply Z. apply in_or_app; left; exact Hi. }
      cbv zeta in L1, O1, I1.
      destruct (IH (crowding (N := RN) fs sorti objs cd F)) as (L2 & O2 & I2).
      { intros G HG. apply NE; right; exact HG. } { exact ND2. } { intros G HG. apply TF; right; exact HG. }
      { intros i Hi. eapply Nat.lt_le_trans; [apply LT; apply in_or_app; right; exact Hi|]. rewrite <- L1. apply le_n. }
      { intros i Hi. etransitivity; [apply O1|apply Z; apply in_or_app; right; exact Hi].
        intros HF. exact (DJ i HF Hi). }
      cbv zeta in L2, O2, I2. split; [exact (eq_trans L2 L1)|]. split.
      + intros k Hk. rewrite in_app_iff in Hk. etransitivity; [apply O2; tauto|apply O1; tauto].
      + intros G i [<-|HG] Hi; [|exact (I2 G i HG Hi)].
        rewrite O2 by exact (DJ i Hi). exact (I1 i Hi).
  Qed.
End Crowd.
