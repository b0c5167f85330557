From Coq Require Import List Arith Bool Lia ZArith Permutation.
From Verif.Base Require Import Num Vec Size SortIdx Instances.
From Verif.Model Require Import Common SA DE CNE.
From Verif.Spec Require Import CommonSpec CNESpec.
From Verif.Proof Require Import SAProof DEProof.
Import ListNotations.

Lemma cne_elite_ok : forall P fl e, fl <= size_max -> cne_elite P fl = Some e ->
  4 <= P /\ 2 <= e /\ (e + 2 <= P \/ P < e).
Proof.
  intros P fl e HF. unfold cne_elite. destruct (Nat.ltb_spec P 4) as [|HP]; [discriminate|].
  set (e0 := if Nat.odd (sub64 P fl) then sub64 fl 1 else fl).
  destruct (Nat.ltb_spec e0 2); [discriminate|]. destruct (Nat.ltb_spec (sub64 P e0) 2); [discriminate|].
  intros E. injection E as <-. split; [exact HP|]. split; [lia|]. unfold sub64 in *.
  destruct (Nat.leb_spec e0 P); [left; lia|right; lia].
Qed.

Lemma idx_facts : forall {N : Num} (l : list N) idx P, length l = P -> sorted_index l idx ->
  length idx = P /\ NoDup idx /\ (forall r i, nth_error idx r = Some i -> i < P) /\
  (forall r, r < P -> nth_error idx r = Some (nth r idx 0)) /\
  (forall r r', r < P -> r' < P -> nth r idx 0 = nth r' idx 0 -> r = r').
Proof.
  intros N l idx P L [Q _]. rewrite L in Q.
  assert (LI : length idx = P) by (rewrite (Permutation_length Q), seq_length; reflexivity).
  assert (ND : NoDup idx) by (eapply Permutation_NoDup; [symmetry; exact Q|apply seq_NoDup]).
  split; [exact LI|]. split; [exact ND|]. split; [|split].
  - intros r i E. apply nth_error_In in E. apply (Permutation_in _ Q) in E. apply in_seq in E. lia.
  - intros r R. apply nth_error_nth'. lia.
  - intros r r' R R' E. rewrite NoDup_nth with (d := 0) in ND. apply ND; lia || auto.
Qed.

Section CNE.
  Context {N : Num}.
  Notation vec := (list N).
  Notation ev := (ev N vec vec).
  Variables (P maxGenerations fl : nat) (mutationProb mutationSize tolerance inf : N).
  Variable f : vec -> N.
  Variable sort_index : list N -> list nat.
  Variable noise : nat -> vec.
  Variable parents : nat -> nat -> nat * nat.
  Variable coin : nat -> nat -> nat -> bool.
  Variables (mu mz : nat -> nat -> vec).
  Variable cb : CB N vec vec.
  Variable x0 : vec.
  Variable O : OrdLaws N.
  Variable HS : forall l, no_nan l -> sorted_index l (sort_index l).
  Variable HI : nisnan inf = false.
  Variable HF : forall y, nlt inf (f y) = false.
  Variable HN : forall i, length (noise i) = length x0.
  Variable HM : forall g i, length (mu g i) = length x0 /\ length (mz g i) = length x0.
  Notation n := (length x0).
  Notation dim := (dim x0).
  Notation bump := (bump mutationProb mutationSize).

  Section Breed.
    Variables (g e : nat) (idx : list nat) (p0 : list vec).
    Hypothesis SI : sorted_index (map f p0) idx.
    Hypothesis L0 : length p0 = P.
    Hypothesis D0 : dim p0.
    Hypothesis E2 : 2 <= e.

    Definition made (y : vec) : Prop := length y = n /\
      forall k c, nth_error y k = Some c -> exists r i x, r < e /\ nth_error idx r = Some i /\ nth_error p0 i = Some x /\ nth_error x k = Some c.

    Let LM : length (map f p0) = P.
    Proof. rewrite map_length. exact L0. Qed.

    Lemma cross_made : forall c a b ia ib ra rb, ra < e -> rb < e -> nth_error idx ra = Some ia -> nth_error idx rb = Some ib ->
      nth_error p0 ia = Some a -> nth_error p0 ib = Some b -> made (cross_child c a b).
    Proof.
      intros c a b ia ib ra rb RA RB IA IB A B.
      pose proof (dim_nth x0 _ _ _ D0 A) as La. pose proof (dim_nth x0 _ _ _ D0 B) as Lb.
      unfold cross_child. split; [rewrite map_length, seq_length; exact La|].
      intros k v E. rewrite nth_error_map in E. destruct (nth_error (seq 0 (length a)) k) as [k'|] eqn:K; [|discriminate].
      assert (KL : k < length a).
      { assert (k < length (seq 0 (length a))) by (apply nth_error_Some; congruence). rewrite seq_length in *. lia. }
      assert (k' = k).
      { apply nth_error_nth with (d := 0) in K. rewrite seq_nth in K by lia. lia. }
      subst k'. cbn in E. injection E as <-. destruct (c k).
      - exists ra, ia, a. repeat split; auto. apply nth_error_nth'. lia.
      - exists rb, ib, b. repeat split; auto. apply nth_error_nth'. lia.
    Qed.

    Lemma breed_ok : forall k i p, e <= i -> i + k = P - 1 -> length p = P ->
      (forall r, r < e -> r < P -> nth_error p (nth r idx 0) = nth_error p0 (nth r idx 0)) ->
      (forall r, e <= r -> r < P -> r < i \/ (r = i /\ e < i) -> exists y, nth_error p (nth r idx 0) = Some y /\ made y) ->
      let q := breed parents coin g e k i idx p in
      length q = P /\ (forall r, r < e -> r < P -> nth_error q (nth r idx 0) = nth_error p0 (nth r idx 0)) /\
      (forall r, e <= r -> r < P -> r < i + k \/ (r = i + k /\ e < i + k) -> exists y, nth_error q (nth r idx 0) = Some y /\ made y).
    Proof.
      destruct (idx_facts _ _ _ LM SI) as (LI & ND & IB & IN & INJ).
      induction k as [|k IH]; intros i p Ei EK Lp HE HC; cbn [breed].
      - rewrite Nat.add_0_r. auto.
      - destruct (parents g i) as [m0 d0]. set (mom := m0 mod e). set (d := d0 mod e).
        set (dad := if mom =? d then if d =? e - 1 then d - 1 else S d else d).
        assert (RM : mom < e) by (apply Nat.mod_upper_bound; lia).
        assert (RD : dad < e).
        { assert (d < e) by (apply Nat.mod_upper_bound; lia). unfold dad.
          destruct (mom =? d); [|lia]. destruct (Nat.eqb_spec d (e - 1)); lia. }
        assert (EP : e < P) by lia.
        destruct (nth_error p0 (nth mom idx 0)) as [a|] eqn:EA.
        2:{ apply nth_error_None in EA. pose proof (IB _ _ (IN mom ltac:(lia))). lia. }
        destruct (nth_error p0 (nth dad idx 0)) as [b|] eqn:EB.
        2:{ apply nth_error_None in EB. pose proof (IB _ _ (IN dad ltac:(lia))). lia. }
        assert (NA : nth (nth mom idx 0) p [] = a).
        { apply nth_error_nth. rewrite HE by lia. exact EA. }
        assert (NB : nth (nth dad idx 0) p [] = b).
        { apply nth_error_nth. rewrite HE by lia. exact EB. }
        unfold crossover2. rewrite NA, NB.
        assert (M1 : made (cross_child (coin g i) a b)) by (eapply (cross_made _ a b _ _ mom dad); eauto; apply IN; lia).
        assert (M2 : made (cross_child (fun k => negb (coin g i k)) a b)) by (eapply (cross_made _ a b _ _ mom dad); eauto; apply IN; lia).
        set (y1 := cross_child (coin g i) a b) in *. set (y2 := cross_child (fun k => negb (coin g i k)) a b) in *.
        assert (Q1 : nth i idx 0 < P) by (eapply IB; apply IN; lia).
        assert (Q2 : nth (S i) idx 0 < P) by (eapply IB; apply IN; lia).
        replace (i + S k) with (S i + k) by lia.
        apply IH; [lia|lia|rewrite !set_nth_length; exact Lp| |].
        + intros r R1 R2. rewrite !set_nth_other; [apply HE; auto| |]; intros C; apply INJ in C; lia.
        + intros r R1 R2 R3. destruct (Nat.eq_dec r (S i)) as [->|NE].
          * exists y2. split; [apply set_nth_same; rewrite set_nth_length; lia|exact M2].
          * rewrite set_nth_other by (intros C; apply INJ in C; lia).
            destruct (Nat.eq_dec r i) as [->|NE2].
            -- exists y1. split; [apply set_nth_same; lia|exact M1].
            -- rewrite set_nth_other by (intros C; apply INJ in C; lia). apply HC; auto. lia.
    Qed.

    Lemma mutate_ok : forall k i p, i + k = P -> length p = P ->
      let q := mutate mutationProb mutationSize mu mz g k i idx p in
      length q = P /\
      (forall r, r < P -> r < i -> nth_error q (nth r idx 0) = nth_error p (nth r idx 0)) /\
      (forall r, r < P -> i <= r -> nth_error q (nth r idx 0) =
         option_map (mutate1 mutationProb mutationSize (mu g r) (mz g r)) (nth_error p (nth r idx 0))).
    Proof.
      destruct (idx_facts _ _ _ LM SI) as (LI & ND & IB & IN & INJ).
      induction k as [|k IH]; intros i p EK Lp; cbn [mutate].
      - split; [exact Lp|]. split; [reflexivity|lia].
      - set (y := mutate1 _ _ _ _ _).
        assert (Q : nth i idx 0 < P) by (eapply IB; apply IN; lia).
        destruct (IH (S i) (set_nth (nth i idx 0) y p)) as (A & B & C); [lia|rewrite set_nth_length; exact Lp|].
        split; [exact A|]. split.
        + intros r R1 R2. rewrite B by lia. apply set_nth_other. intros X. apply INJ in X; lia.
        + intros r R1 R2. destruct (Nat.eq_dec r i) as [->|NE].
          * rewrite B by lia. rewrite set_nth_same by lia.
            rewrite (nth_error_nth' p []) by lia. reflexivity.
          * rewrite C by lia. rewrite set_nth_other by (intros X; apply INJ in X; lia). reflexivity.
    Qed.

    Lemma mutate1_length : forall r x, length x = n -> length (mutate1 mutationProb mutationSize (mu g r) (mz g r) x) = n.
    Proof. intros r x L. destruct (HM g r) as [A B]. unfold mutate1, vadd. rewrite map2_length, map2_length. lia. Qed.
    Lemma mutate1_nth : forall r x k c, length x = n -> nth_error x k = Some c ->
      exists d, bump d /\ nth_error (mutate1 mutationProb mutationSize (mu g r) (mz g r) x) k = Some (nadd c d).
    Proof.
      intros r x k c L E. destruct (HM g r) as [A B]. unfold mutate1, vadd.
      assert (K : k < n) by (rewrite <- L; apply nth_error_Some; congruence).
      rewrite nth_error_map2, E, nth_error_map2, (nth_error_nth' (mu g r) n0), (nth_error_nth' (mz g r) n0) by lia.
      eexists. split; [|reflexivity]. eexists _, _. reflexivity.
    Qed.

    Lemma reproduce_ok : 4 <= P -> e + 2 <= P \/ P < e ->
      let q := reproduce P mutationProb mutationSize parents coin mu mz g e idx p0 in
      offspring f mutationProb mutationSize e p0 q /\ dim q /\ length q = P /\ nth_error q (nth 0 idx 0) = nth_error p0 (nth 0 idx 0).
    Proof.
      intros P4 EP q. destruct (idx_facts _ _ _ LM SI) as (LI & ND & IB & IN & INJ).
      unfold reproduce in q. set (p := breed _ _ _ _ _ _ _ _) in q.
      assert (BR : length p = P /\ (forall r, r < e -> r < P -> nth_error p (nth r idx 0) = nth_error p0 (nth r idx 0)) /\
                   (forall r, e <= r -> r < P -> exists y, nth_error p (nth r idx 0) = Some y /\ made y)).
      { destruct EP as [EP|EP].
        - destruct (breed_ok (P - 1 - e) e p0) as (A & B & C); [lia|lia|exact L0|reflexivity|intros; lia|].
          fold p in A, B, C. split; [exact A|]. split; [exact B|]. intros r R1 R2. apply C; auto. lia.
        - unfold p. replace (P - 1 - e) with 0 by lia. cbn [breed]. split; [exact L0|]. split; [reflexivity|lia]. }
      destruct BR as (B1 & B2 & B3).
      destruct (mutate_ok (P - 1) 1 p) as (M1 & M2 & M3); [lia|exact B1|]. fold q in M1, M2, M3.
      assert (FST : nth_error q (nth 0 idx 0) = nth_error p0 (nth 0 idx 0)).
      { rewrite M2 by lia. apply B2; lia. }
      assert (NIX : forall r i, nth_error idx r = Some i -> r < P /\ i = nth r idx 0).
      { intros r i E. split; [rewrite <- LI; apply nth_error_Some; congruence|]. symmetry. apply nth_error_nth. exact E. }
      split; [|split; [|split; [exact M1|exact FST]]].
      - exists idx. split; [exact SI|]. split; [congruence|]. split; [|split].
        + intros i E. apply NIX in E as [_ ->]. exact FST.
        + intros r i x R E X. apply NIX in E as [R2 ->]. rewrite M3 by lia. rewrite B2 by lia. rewrite X. cbn.
          pose proof (dim_nth x0 _ _ _ D0 X) as LX.
          eexists. split; [reflexivity|]. split; [rewrite mutate1_length by exact LX; congruence|].
          intros k c C. apply mutate1_nth; auto.
        + intros r i x R E X. apply NIX in E as [R2 ->]. destruct (B3 r R R2) as (y & Y & [LY MY]). rewrite M3 by lia. rewrite Y. cbn.
          pose proof (dim_nth x0 _ _ _ D0 X) as LX.
          eexists. split; [reflexivity|]. split; [rewrite mutate1_length by exact LY; congruence|].
          intros k c' C. assert (K : k < n).
          { rewrite <- (mutate1_length r y LY). apply nth_error_Some. congruence. }
          destruct (nth_error y k) as [c|] eqn:EC; [|apply nth_error_None in EC; lia].
          destruct (mutate1_nth r y k c LY EC) as (d & D1 & D2). rewrite D2 in C. injection C as <-.
          destruct (MY k c EC) as (r' & i' & x' & Z1 & Z2 & Z3 & Z4).
          exists r', i', x', c, d. auto 10.
      - unfold DEProof.dim. apply Forall_forall. intros y Y. apply In_nth_error in Y as (j & Y).
        assert (JP : j < P) by (rewrite <- M1; apply nth_error_Some; congruence).
        destruct SI as [PM _]. rewrite LM in PM.
        assert (IJ : In j idx) by (eapply Permutation_in; [symmetry; exact PM|apply in_seq; lia]).
        apply In_nth_error in IJ as (r & R). apply NIX in R as [R ->].
        destruct (Nat.eq_dec r 0) as [->|NZ].
        + rewrite FST in Y. eapply dim_nth; eauto.
        + rewrite M3 in Y by lia. destruct (nth_error p (nth r idx 0)) as [z|] eqn:Z; [|discriminate]. injection Y as <-.
          apply mutate1_length. destruct (le_lt_dec e r) as [RE|RE].
          * destruct (B3 r RE R) as (z' & Z' & [LZ _]). congruence.
          * rewrite B2 in Z by lia. eapply dim_nth; eauto.
    Qed.
  End Breed.

  Lemma evaluate_ok : forall p tr t, let '(tr', t') := evaluate f cb p tr t in
    tr' = rev (evaluated f p) ++ tr /\ ((t = true -> asked cb (rev tr)) -> t' = true -> asked cb (rev tr')).
  Proof.
    induction p as [|y p IH]; intros tr t; cbn [evaluate]; [split; auto|].
    set (tr1 := St y :: tr). set (tr2 := Ev y (f y) :: tr1). specialize (IH tr2 (t || cs_stop cb tr1 || cs_stop cb tr2)).
    destruct (evaluate f cb p tr2 _) as [tr' t']. destruct IH as [A B]. split.
    - rewrite A. cbn [evaluated flat_map app rev]. fold (evaluated f p). rewrite <- !app_assoc. reflexivity.
    - intros AT. apply B. intros Q. apply orb_true_iff in Q as [Q|Q]; [|apply asked_now; auto].
      apply (asked_ext cb tr1 [_]). apply orb_true_iff in Q as [Q|Q]; [|apply asked_now; auto].
      apply (asked_ext cb tr [_]). auto.
  Qed.

  (** the least of a population without NaN *)
  Lemma sorted_first : forall p idx, sorted_index (map f p) idx -> p <> [] -> no_nan (map f p) ->
    exists i rest b, idx = i :: rest /\ nth_error p i = Some b /\ (forall y, In y p -> nlt (f y) (f b) = false) /\
      neq (vmin inf (map f p)) (f b) = true.
  Proof.
    intros p idx SI NE NN. assert (LM : length (map f p) = length p) by apply map_length.
    destruct (idx_facts _ _ _ LM SI) as (LI & ND & IB & IN & INJ).
    destruct idx as [|i rest]; [destruct p; [congruence|discriminate]|].
    pose proof (IB 0 i eq_refl) as IP. destruct (nth_error p i) as [b|] eqn:EB; [|apply nth_error_None in EB; lia].
    assert (LE : forall y, In y p -> nlt (f y) (f b) = false).
    { intros y Y. apply In_nth_error in Y as (j & Y). destruct SI as [PM ASC]. rewrite LM in PM.
      assert (JP : j < length p) by (apply nth_error_Some; congruence).
      assert (IJ : In j (i :: rest)) by (eapply Permutation_in; [symmetry; exact PM|apply in_seq; lia]).
      apply In_nth_error in IJ as (r & R). destruct r as [|r].
      - injection R as <-. rewrite EB in Y. injection Y as <-. apply (ol_irrefl _ O).
      - apply (ASC 0 (S r) i j); [lia|reflexivity|exact R| |].
        + rewrite nth_error_map, EB. reflexivity.
        + rewrite nth_error_map, Y. reflexivity. }
    exists i, rest, b. split; [reflexivity|]. split; [exact EB|]. split; [exact LE|].
    assert (IBP : In b p) by (eapply nth_error_In; eauto).
    assert (NB : nisnan (f b) = false) by (apply NN; apply in_map; exact IBP).
    destruct (vmin_ok O (map f p) inf) as [[V|[V1 V2]] V3].
    - specialize (V3 (f b) (in_map f _ _ IBP)). rewrite V in *. apply (ol_eq _ O). split; apply (ol_total _ O); auto.
    - apply (ol_eq _ O). apply in_map_iff in V1 as (z & Z1 & Z2).
      assert (nisnan (vmin inf (map f p)) = false) by exact (lt_not_nan_l O _ _ V2).
      split; apply (ol_total _ O); auto; first [apply V3; apply in_map; exact IBP|rewrite <- Z1; apply LE; exact Z2].
  Qed.

  Lemma cne_loop_ok : forall e k g pop idx last tr t pop' idx' tr',
    cne_loop P mutationProb mutationSize tolerance inf f sort_index parents coin mu mz cb e k g pop idx last tr t = Ret (pop', idx', tr') ->
    2 <= e -> 4 <= P -> e + 2 <= P \/ P < e -> length pop = P -> dim pop -> (t = true -> asked cb (rev tr)) ->
    exists ps, length ps <= k /\ tr' = rev (flat_map (evaluated f) ps) ++ tr /\
      (ps = [] -> pop' = pop /\ idx' = idx /\ (k = 0 \/ t = true)) /\
      (ps <> [] -> hd_error ps = Some pop /\ lineage f mutationProb mutationSize e pop (tl ps ++ [pop']) /\
        exists i rest b, idx' = Some (i :: rest) /\ nth_error pop' i = Some b /\ In b (List.last ps []) /\
          (forall q y, In q ps -> In y q -> nisnan (f y) = false /\ nlt (f y) (f b) = false)) /\
      (length ps = k \/ asked cb (rev tr') \/
        exists q v w, ps <> [] /\ least f (List.last ps []) v /\ (removelast ps = [] /\ w = last \/ removelast ps <> [] /\ q = List.last (removelast ps) [] /\ least f q w) /\
          nlt (nabs (nsub w v)) tolerance = true).
  Proof.
    induction k as [|k IH]; intros g pop idx last tr t pop' idx' tr' E E2 P4 EP LP DP AK; cbn [cne_loop] in E.
    - assert (X : (pop, idx, tr) = (pop', idx', tr')) by (destruct t; congruence). injection X as <- <- <-.
      exists []. split; [simpl; lia|]. split; [reflexivity|]. split; [auto|]. split; [congruence|left; reflexivity].
    - destruct t.
      { injection E as <- <- <-. exists []. split; [simpl; lia|]. split; [reflexivity|]. split; [auto|]. split; [congruence|].
        right; left. auto. }
      pose proof (evaluate_ok pop tr false) as EV. destruct (evaluate f cb pop tr false) as [tr1 t1]. destruct EV as [EV1 EV2].
      destruct (existsb nisnan (map f pop)) eqn:NAN; [discriminate|].
      assert (NN : no_nan (map f pop)).
      { intros v V. destruct (nisnan v) eqn:Q; [|reflexivity]. rewrite <- NAN. symmetry. apply existsb_exists. eauto. }
      set (ix := sort_index (map f pop)) in *. pose proof (HS _ NN) as SI. fold ix in SI.
      assert (NE : pop <> []) by (destruct pop; simpl in LP; [lia|discriminate]).
      destruct (sorted_first pop ix SI NE NN) as (i & rest & b & IX & Hb & LE & VM).
      assert (IBP : In b pop) by (eapply nth_error_In; eauto).
      destruct (reproduce_ok g e ix pop SI LP DP E2 P4 EP) as (OFF & D1 & L1 & FST).
      set (pop1 := reproduce _ _ _ _ _ _ _ _ _ _ _) in *.
      assert (B1 : nth_error pop1 i = Some b).
      { rewrite IX in FST. cbn [nth] in FST. rewrite <- Hb. exact FST. }
      assert (LT : least f pop (vmin inf (map f pop))) by (exists b; auto).
      assert (NY : forall y, In y pop -> nisnan (f y) = false) by (intros y Y; apply NN; apply in_map; exact Y).
      destruct (nlt (nabs (nsub last (vmin inf (map f pop)))) tolerance) eqn:QT.
      + injection E as <- <- <-. exists [pop]. split; [simpl; lia|]. split; [rewrite EV1; simpl; rewrite app_nil_r; reflexivity|].
        split; [discriminate|]. split.
        * intros _. split; [reflexivity|]. split; [simpl; auto|]. exists i, rest, b. rewrite IX. split; [reflexivity|]. split; [exact B1|].
          split; [exact IBP|]. intros q y [<-|[]] Y. auto.
        * right; right. exists [], (vmin inf (map f pop)), last. split; [discriminate|]. split; [exact LT|]. split; [left; auto|exact QT].
      + apply IH in E; auto.
        destruct E as (ps & K1 & K2 & K3 & K4 & K5). exists (pop :: ps). split; [simpl; lia|].
        split. { rewrite K2, EV1. cbn [flat_map]. rewrite rev_app_distr, app_assoc. reflexivity. }
        split; [discriminate|]. split.
        * intros _. split; [reflexivity|]. destruct ps as [|q0 ps].
          -- destruct (K3 eq_refl) as (-> & -> & _). split; [simpl; auto|]. exists i, rest, b. rewrite IX. split; [reflexivity|]. split; [exact B1|].
             split; [exact IBP|]. intros q y [<-|[]] Y. auto.
          -- destruct (K4 ltac:(discriminate)) as (H1 & H2 & i' & rest' & b' & H3 & H4 & H5 & H6). injection H1 as ->.
             split; [cbn [tl app lineage]; split; [exact OFF|exact H2]|].
             exists i', rest', b'. split; [exact H3|]. split; [exact H4|]. split; [exact H5|].
             assert (NB' : nisnan (f b') = false).
             { destruct (H6 (List.last (pop1 :: ps) []) b') as [Z _]; [|exact H5|exact Z].
               destruct (@exists_last _ (pop1 :: ps)) as (l' & z & Z); [discriminate|]. rewrite Z, last_last. apply in_or_app. right. left. reflexivity. }
             intros q y [<-|Q] Y; [|eapply H6; eauto]. split; [auto|].
             destruct (H6 pop1 b) as [N1 N2]; [left; reflexivity|eapply nth_error_In; eauto|].
             assert (nle (f b') (f b) = true) by (apply (ol_total _ O); auto).
             assert (nle (f b) (f y) = true) by (apply (ol_total _ O); auto).
             apply (ol_le_not_lt _ O). eapply (ol_le_trans _ O); eauto.
        * destruct K5 as [K5|[K5|(q & v & w & W1 & W2 & W3 & W4)]]; [left; simpl; lia|right; left; exact K5|].
          right; right. destruct ps as [|q0 ps]; [congruence|].
          destruct (K4 W1) as (H1 & _). injection H1 as ->.
          destruct W3 as [[R1 R2]|[R1 [R2 R3]]].
          -- destruct ps as [|q1 ps]; [|discriminate]. exists pop, v, w. split; [discriminate|]. split; [exact W2|]. split; [|exact W4].
             right. split; [discriminate|]. split; [reflexivity|]. rewrite R2. exact LT.
          -- exists q, v, w. split; [discriminate|]. split; [exact W2|]. split; [|exact W4].
             right. split; [discriminate|]. split; [|exact R3]. rewrite R2. cbn [removelast].
             destruct (removelast (pop1 :: ps)) eqn:Z; [congruence|]. cbn [removelast] in Z |- *. destruct ps; [congruence|].
             rewrite Z. reflexivity.
  Qed.

  Lemma cne_loop_total : (forall y, nisnan (f y) = false) -> forall e k g pop idx last tr t, exists z,
    cne_loop P mutationProb mutationSize tolerance inf f sort_index parents coin mu mz cb e k g pop idx last tr t = Ret z.
  Proof.
    intros NN e. induction k as [|k IH]; intros g pop idx last tr t; cbn [cne_loop]; [destruct t; eauto|]. destruct t; [eauto|].
    destruct (evaluate f cb pop tr false) as [tr1 t1].
    replace (existsb nisnan (map f pop)) with false.
    2:{ symmetry. induction pop as [|y pop IHp]; simpl; [reflexivity|]. rewrite NN. exact IHp. }
    destruct (nlt _ tolerance); eauto.
  Qed.

  Definition cne_pop0 : list vec := map (fun i => vadd (noise i) x0) (seq 0 P).

  Theorem cne_ok : fl <= size_max -> forall e, cne_elite P fl = Some e ->
    exists o, cne_optimize P maxGenerations fl mutationProb mutationSize tolerance inf f sort_index noise parents coin mu mz cb x0 = Some o /\
    (1 <= maxGenerations -> cs_stop cb [Ev x0 (f x0)] = false -> (forall y, nisnan (f y) = false) -> exists r, o = Ret r) /\
    forall r, o = Ret r ->
    exists ps pf, 1 <= length ps <= maxGenerations /\ hd_error ps = Some cne_pop0 /\
      lineage f mutationProb mutationSize e cne_pop0 (tl ps ++ [pf]) /\
      o_tr r = [Ev x0 (f x0); Begin x0] ++ flat_map (evaluated f) ps ++ [Ev (o_x r) (o_val r); End (o_x r)] /\
      o_val r = f (o_x r) /\ In (o_x r) (last ps []) /\
      (forall q y, In q ps -> In y q -> nlt (f y) (o_val r) = false) /\
      (length ps = maxGenerations \/ asked cb (o_tr r) \/
       exists v w, least f (last ps []) v /\
         (length ps = 1 /\ w = f x0 \/ 1 < length ps /\ least f (last (removelast ps) []) w) /\
         nlt (nabs (nsub w v)) tolerance = true).
  Proof.
    intros HFL e HE. destruct (cne_elite_ok P fl e HFL HE) as (P4 & E2 & EP). unfold cne_optimize. rewrite HE. fold cne_pop0.
    eexists. split; [reflexivity|].
    set (t := cs_stop cb [Ev x0 (f x0)]).
    assert (LP : length cne_pop0 = P) by (unfold cne_pop0; rewrite map_length, seq_length; reflexivity).
    assert (DP : dim cne_pop0).
    { unfold DEProof.dim, cne_pop0. apply Forall_forall. intros y Y. apply in_map_iff in Y as (j & <- & _).
      unfold vadd. rewrite map2_length, HN. lia. }
    assert (AK : t = true -> asked cb (rev [Begin x0; Ev x0 (f x0)])).
    { intros Q. apply (asked_ext cb [Ev x0 (f x0)] [Begin x0]). apply asked_now; auto. }
    split.
    - intros M1 ST NN. destruct (cne_loop_total NN e maxGenerations 1 cne_pop0 None (f x0) [Begin x0; Ev x0 (f x0)] t) as ([[p' i'] tr'] & E).
      rewrite E. destruct (cne_loop_ok _ _ _ _ _ _ _ _ _ _ _ E E2 P4 EP LP DP AK) as (ps & K1 & K2 & K3 & K4 & K5).
      destruct ps as [|q ps].
      + exfalso. destruct (K3 eq_refl) as (_ & _ & [Z|Z]); [lia|]. congruence.
      + destruct (K4 ltac:(discriminate)) as (_ & _ & i & rest & b & -> & _). eauto.
    - intros r R. destruct (cne_loop _ _ _ _ _ _ _ _ _ _ _ _ _ _ _ _ _ _ _ _) as [[[p' i'] tr']| |] eqn:E; try discriminate.
      destruct i' as [[|i0 rest0]|]; try discriminate. injection R as <-. cbn [o_tr o_x o_val].
      destruct (cne_loop_ok _ _ _ _ _ _ _ _ _ _ _ E E2 P4 EP LP DP AK) as (ps & K1 & K2 & K3 & K4 & K5).
      destruct ps as [|q ps]; [destruct (K3 eq_refl) as (_ & Z & _); discriminate|].
      destruct (K4 ltac:(discriminate)) as (H1 & H2 & i & rest & b & H3 & H4 & H5 & H6). injection H3 as <- <-.
      rewrite (nth_error_nth _ _ _ H4).
      exists (q :: ps), p'. split; [simpl in *; lia|]. split; [exact H1|]. split; [exact H2|].
      split. { rewrite K2. cbn [rev]. rewrite rev_app_distr, rev_involutive. cbn [rev app]. rewrite <- !app_assoc. reflexivity. }
      split; [reflexivity|]. split; [exact H5|]. split; [intros; eapply H6; eauto|].
      destruct K5 as [K5|[K5|(q1 & v & w & W1 & W2 & W3 & W4)]]; [left; exact K5|right; left|].
      + apply (asked_ext cb tr' [End b; Ev b (f b)]). exact K5.
      + right; right. exists v, w. split; [exact W2|]. split; [|exact W4].
        destruct W3 as [[R1 R2]|[R1 [R2 R3]]].
        * left. split; [|exact R2]. destruct ps; [reflexivity|discriminate].
        * right. split; [destruct ps; [contradiction R1; reflexivity|simpl; lia]|]. rewrite <- R2. exact R3.
  Qed.
End CNE.
