(** NSGA-II: bounds, the reported front, the returned value. *)
From Coq Require Import List Arith Bool ZArith Lia Permutation.
From Verif.Base Require Import Num Vec Size.
From Verif.Model Require Import SA Pareto NSGA2.
From Verif.Spec Require Import ParetoSpec NSGA2Spec.
From Verif.Proof Require Import SAProof ParetoProof.
Import ListNotations.

Section P.
  Context {N : Num}.
  Variable OL : OrdLaws N.
  Notation vec := (list N).

  Lemma clip1_in : forall lo hi x : N, nlt hi lo = false ->
    nlt (clip1 lo hi x) lo = false /\ nlt hi (clip1 lo hi x) = false.
  Proof.
    intros lo hi x H. unfold clip1. destruct (nlt x lo) eqn:E.
    - rewrite H. split; [apply (ol_irrefl _ OL)|exact H].
    - destruct (nlt hi x) eqn:E2; [split; [exact H|apply (ol_irrefl _ OL)]|auto].
  Qed.

  Lemma clip_within : forall lo hi x : vec, length hi = length lo -> length x = length lo ->
    (forall i l h, nth_error lo i = Some l -> nth_error hi i = Some h -> nlt h l = false) ->
    within lo hi (clip lo hi x).
  Proof.
    intros lo; induction lo as [|l lo IH]; intros [|h hi] [|a x] H1 H2 H3; cbn in *; try lia.
    - split; [reflexivity|]. intros i. destruct i; discriminate.
    - destruct (IH hi x) as [L W]; [lia|lia|intros i; apply (H3 (S i))|]. split; [cbn; lia|].
      intros [|i] l' h' a'; cbn; intros E1 E2 E3.
      + injection E1 as <-. injection E2 as <-. injection E3 as <-. apply clip1_in. apply (H3 0); reflexivity.
      + eapply W; eauto.
  Qed.

  (** ** EvaluateObjectives *)
  Definition row_after (n m : nat) (gs : list (vec -> N)) (pop : list vec) (i : nat) (row : vec) : vec :=
    if Nat.ltb i n then firstn m row ++ map (fun g => g (nth i pop [])) gs else row.

  Lemma firstn_set_nth : forall (m : nat) (a : N) row, m < length row ->
    firstn (m + 1) (set_nth m a row) = firstn m row ++ [a].
  Proof.
    intros m; induction m as [|m IH]; intros a [|b row] H; cbn in *; try lia; [reflexivity|].
    f_equal. apply IH. lia.
  Qed.
  Lemma firstn_succ : forall (m : nat) (row : vec), m < length row ->
    firstn (m + 1) row = firstn m row ++ [nth m row n0].
  Proof.
    intros m; induction m as [|m IH]; intros [|b row] H; cbn in *; try lia; [reflexivity|].
    f_equal. apply IH. lia.
  Qed.
  Lemma split_row : forall (m : nat) (row : vec), m < length row ->
    row = firstn m row ++ nth m row n0 :: skipn (S m) row.
  Proof.
    intros m; induction m as [|m IH]; intros [|b row] H; cbn in *; try lia; [reflexivity|].
    f_equal. apply IH. lia.
  Qed.

  Definition ev_ok (n : nat) (gs : list (vec -> N)) (m : nat) (pop : list vec) : Prop :=
    forall objs c, (forall i row, nth_error objs i = Some row -> length row = m + length gs) ->
    let st := evaluate n gs m pop (objs, c) in
    length (fst st) = length objs /\
    (forall i row, nth_error objs i = Some row -> nth_error (fst st) i = Some (row_after n m gs pop i row)) /\
    snd st = c + calls_for n (length gs).

  Lemma eval_fold : forall n g gs m pop, ev_ok n gs (m + 1) pop ->
    forall l objs c, (forall i row, nth_error objs i = Some row -> length row = m + S (length gs)) ->
    (forall i, In i l -> i < n) ->
    let st := fold_left (fun st i =>
            let '(objs, calls) := st in
            evaluate n gs (m + 1) pop
              (set_nth i (set_nth m (g (nth i pop [])) (nth i objs [])) objs, calls + 1)) l (objs, c) in
    length (fst st) = length objs /\
    (forall i row, nth_error objs i = Some row -> nth_error (fst st) i = Some
       (if Nat.ltb i n then firstn m row ++ (if mem i l then g (nth i pop []) else nth m row n0)
             :: (match l with [] => skipn (S m) row | _ => map (fun g => g (nth i pop [])) gs end)
        else row)) /\
    snd st = c + length l * (1 + calls_for n (length gs)).
  Proof.
    intros n g gs m pop EV l; induction l as [|j l IH]; intros objs c HR HL.
    - cbn [fold_left fst snd length mem existsb]. split; [reflexivity|]. split; [|lia]. intros i row H. rewrite H.
      destruct (Nat.ltb i n); [|reflexivity]. f_equal. apply split_row. rewrite (HR _ _ H). lia.
    - cbn [fold_left].
      set (objs1 := set_nth j (set_nth m (g (nth j pop [])) (nth j objs [])) objs).
      assert (R1 : forall i row1, nth_error objs1 i = Some row1 -> exists row, nth_error objs i = Some row /\
                     row1 = (if Nat.eqb i j then set_nth m (g (nth j pop [])) row else row)).
      { intros i row1 H. unfold objs1 in H. destruct (Nat.eqb_spec i j) as [->|Ne].
        - destruct (nth_error objs j) as [r|] eqn:E.
          + exists r. split; [reflexivity|]. rewrite set_nth_same in H by (apply nth_error_Some; congruence).
            injection H as <-. rewrite (nth_error_nth _ _ _ E). reflexivity.
          + exfalso. apply nth_error_None in E.
            assert (j < length objs) by (erewrite <- set_nth_length; apply nth_error_Some; rewrite H; discriminate). lia.
        - rewrite set_nth_other in H by exact Ne. eauto. }
      assert (R2 : forall i row, nth_error objs i = Some row ->
                     nth_error objs1 i = Some (if Nat.eqb i j then set_nth m (g (nth j pop [])) row else row)).
      { intros i row H. unfold objs1. destruct (Nat.eqb_spec i j) as [->|Ne].
        - rewrite (nth_error_nth _ _ _ H). apply set_nth_same. apply nth_error_Some. congruence.
        - rewrite set_nth_other by exact Ne. exact H. }
      assert (R3 : forall i row, nth_error objs1 i = Some row -> length row = (m + 1) + length gs).
      { intros i row1 H. destruct (R1 _ _ H) as (row & H' & ->). apply HR in H'.
        destruct (Nat.eqb i j); rewrite ?set_nth_length; lia. }
      destruct (EV objs1 (c + 1) R3) as (L1 & E1 & C1). fold objs1 in L1, E1, C1.
      destruct (evaluate n gs (m + 1) pop (objs1, c + 1)) as [objs2 c2] eqn:EQ. cbn [fst snd] in L1, E1, C1.
      assert (E2 : forall i row, nth_error objs i = Some row -> nth_error objs2 i = Some
                (if Nat.ltb i n then firstn m row ++ (if Nat.eqb i j then g (nth i pop []) else nth m row n0) ::
                      map (fun g => g (nth i pop [])) gs else row)).
      { intros i row H. rewrite (E1 _ _ (R2 _ _ H)). unfold row_after. apply HR in H. f_equal.
        destruct (Nat.eqb_spec i j) as [->|Ne].
        - assert (Lj : j < n) by (apply HL; left; reflexivity). apply Nat.ltb_lt in Lj. rewrite Lj.
          rewrite firstn_set_nth by lia. rewrite <- app_assoc. reflexivity.
        - destruct (Nat.ltb i n); [|reflexivity]. rewrite firstn_succ by lia. rewrite <- app_assoc. reflexivity. }
      destruct (IH objs2 c2) as (L3 & E3 & C3).
      { intros i row2 H. assert (i < length objs).
        { rewrite <- (set_nth_length j (set_nth m (g (nth j pop [])) (nth j objs [])) objs).
          fold objs1. rewrite <- L1. apply nth_error_Some. congruence. }
        destruct (nth_error objs i) as [row|] eqn:E; [|apply nth_error_None in E; lia].
        rewrite (E2 _ _ E) in H. injection H as <-. apply HR in E.
        destruct (Nat.ltb i n); [|exact E]. rewrite app_length, firstn_length. cbn. rewrite map_length. lia. }
      { intros i Hi. apply HL. right; exact Hi. }
      split; [rewrite L3, L1; apply set_nth_length|]. split; [|rewrite C3, C1; cbn [length]; lia].
      intros i row H. rewrite (E3 _ _ (E2 _ _ H)). f_equal. unfold mem. cbn [existsb]. fold (mem i l).
      destruct (Nat.ltb i n) eqn:Ln; [|reflexivity].
      assert (Lr := HR _ _ H).
      assert (F1 : firstn m (firstn m row ++ (if Nat.eqb i j then g (nth i pop []) else nth m row n0) ::
                map (fun g0 => g0 (nth i pop [])) gs) = firstn m row).
      { rewrite firstn_app, firstn_firstn, Nat.min_id, firstn_length, Nat.min_l by lia.
        rewrite Nat.sub_diag. cbn. apply app_nil_r. }
      rewrite F1. f_equal.
      assert (F2 : nth m (firstn m row ++ (if Nat.eqb i j then g (nth i pop []) else nth m row n0) ::
                map (fun g0 => g0 (nth i pop [])) gs) n0 = (if Nat.eqb i j then g (nth i pop []) else nth m row n0)).
      { rewrite app_nth2; rewrite firstn_length, Nat.min_l by lia; [|lia]. rewrite Nat.sub_diag. reflexivity. }
      rewrite F2. f_equal.
      + destruct (Nat.eqb i j), (mem i l); reflexivity.
      + destruct l; [|reflexivity].
        rewrite skipn_app, firstn_length, Nat.min_l by lia.
        rewrite skipn_all2 by (rewrite firstn_length; lia). replace (S m - m) with 1 by lia. reflexivity.
  Qed.

  Lemma evaluate_ok : forall n gs m pop, ev_ok n gs m pop.
  Proof.
    intros n gs; induction gs as [|g gs IH]; intros m pop objs c HR; cbn [evaluate].
    - cbn. split; [reflexivity|]. split; [|lia]. intros i row H. rewrite H. f_equal. unfold row_after.
      cbn [map]. destruct (Nat.ltb i n); [|reflexivity]. rewrite app_nil_r. symmetry. apply firstn_all2.
      rewrite (HR _ _ H). cbn. lia.
    - destruct (eval_fold n g gs m pop (IH (m + 1) pop) (seq 0 n) objs c) as (L & E & C).
      { intros i row H. rewrite (HR _ _ H). reflexivity. }
      { intros i Hi. apply in_seq in Hi. lia. }
      split; [exact L|]. split.
      + intros i row H. rewrite (E _ _ H). f_equal. unfold row_after. destruct (Nat.ltb_spec i n); [|reflexivity].
        f_equal. cbn [map]. replace (mem i (seq 0 n)) with true.
        * f_equal. destruct n; [lia|]. reflexivity.
        * symmetry. apply mem_In, in_seq. lia.
      + rewrite C, seq_length. cbn [length calls_for]. lia.
  Qed.

  Lemma evaluate_table : forall n fs (pop : list vec), n <= length pop ->
    fst (evaluate n fs 0 pop (repeat (repeat n0 (length fs)) (length pop), 0)) =
    map (objv fs) (firstn n pop) ++ repeat (repeat n0 (length fs)) (length pop - n).
  Proof.
    intros n fs pop Hn.
    destruct (evaluate_ok n fs 0 pop (repeat (repeat n0 (length fs)) (length pop)) 0) as (L & E & _).
    { intros i row H. apply nth_error_In, repeat_spec in H. subst. rewrite repeat_length. reflexivity. }
    cbv zeta in L, E. rewrite repeat_length in L.
    match goal with |- ?a = ?b => set (A := a) in *; set (B := b) in * end.
    assert (LB : length B = length pop).
    { unfold B. rewrite app_length, map_length, firstn_length, repeat_length. lia. }
    assert (X : forall i, nth_error A i = nth_error B i).
    2: { clearbody A B. clear - X. revert B X; induction A as [|a A IH]; intros [|b B] X; auto.
         - specialize (X 0). discriminate.
         - specialize (X 0). discriminate.
         - assert (X0 := X 0). cbn in X0. injection X0 as ->. f_equal. apply IH. intros i. apply (X (S i)). }
    intros i. destruct (Nat.lt_ge_cases i (length pop)) as [Hi|Hi].
    - assert (R : nth_error (repeat (repeat (@n0 N) (length fs)) (length pop)) i = Some (repeat n0 (length fs))).
      { apply nth_error_repeat. exact Hi. }
      rewrite (E _ _ R). unfold row_after, B. destruct (Nat.ltb_spec i n) as [Li|Li].
      + rewrite nth_error_app1 by (rewrite map_length, firstn_length; lia).
        cbn [firstn app]. rewrite nth_error_map.
        destruct (nth_error pop i) as [x|] eqn:P; [|apply nth_error_None in P; lia].
        assert (P' : nth_error (firstn n pop) i = Some x).
        { rewrite <- P. rewrite <- (firstn_skipn n pop) at 2. symmetry. apply nth_error_app1. rewrite firstn_length. lia. }
        rewrite P'. cbn. unfold objv. do 2 f_equal. erewrite nth_error_nth by exact P. reflexivity.
      + rewrite nth_error_app2; rewrite map_length, firstn_length; [|lia].
        symmetry. apply nth_error_repeat. lia.
    - assert (A1 : nth_error A i = None) by (apply nth_error_None; lia).
      assert (B1 : nth_error B i = None) by (apply nth_error_None; lia). congruence.
  Qed.

  (** ** children *)
  Variables (n maxGen : nat).
  Variables (cp mp ms eps : N).
  Variables (lo hi : vec).
  Variable d : nat.
  Hypothesis PB : proper_bounds d lo hi.
  Variable rnd : nat -> nat -> @draws N.
  Hypothesis GD : forall g j, good_draws n d (rnd g j).

  Lemma mutate_within : forall child u g, length child = d -> length u = d -> length g = d ->
    within lo hi (mutate mp ms lo hi child u g).
  Proof.
    intros child u g H1 H2 H3. destruct PB as (L1 & L2 & B). unfold mutate. apply clip_within; [lia| |exact B].
    unfold vadd, vmul, vscale. rewrite !map2_length, !map_length. lia.
  Qed.

  Lemma crossover_length : forall idx pa pb, length idx = d -> length pa = d -> length pb = d ->
    length (fst (crossover cp idx pa pb)) = d /\ length (snd (crossover cp idx pa pb)) = d.
  Proof.
    intros idx pa pb H1 H2 H3. unfold crossover, vadd, vmul. cbn. rewrite !map2_length, !map_length. lia.
  Qed.

  Lemma other_lt : forall a b, 4 <= n -> a < n -> b < n -> other n a b < n.
  Proof.
    intros a b Hn Ha Hb. unfold other. destruct (Nat.eqb_spec a b); [|exact Hb].
    destruct (Nat.ltb_spec b (n - 1)); lia.
  Qed.

  Lemma children_ok : forall fuel gen j pop acc,
    4 <= n -> length pop = n -> (forall x, In x pop -> length x = d) -> (forall x, In x acc -> within lo hi x) ->
    length pop <= fuel + length acc ->
    exists cs, children n cp mp ms rnd fuel gen j lo hi pop acc = NRet cs /\
      length pop <= length cs /\ (forall x, In x cs -> within lo hi x).
  Proof.
    intros fuel; induction fuel as [|fuel IH]; intros gen j pop acc Hn Hp HL HA HF; cbn [children].
    - destruct (Nat.ltb_spec (length acc) (length pop)); [lia|]. exists acc. auto.
    - destruct (Nat.ltb_spec (length acc) (length pop)) as [Hlt|Hge]; [|exists acc; auto].
      destruct (GD gen j) as (Ga & Gb & G1 & G2 & G3 & G4 & G5).
      destruct (nth_error pop (d_a (rnd gen j))) as [pa|] eqn:Ea;
        [|apply nth_error_None in Ea; lia].
      assert (Go := other_lt (d_a (rnd gen j)) (d_b (rnd gen j)) Hn Ga Gb).
      destruct (nth_error pop (other n (d_a (rnd gen j)) (d_b (rnd gen j)))) as [pb|] eqn:Eb;
        [|apply nth_error_None in Eb; lia].
      assert (Lx : length pa = d /\ length pb = d) by (split; apply HL; eapply nth_error_In; eassumption).
      destruct Lx as [La Lb].
      destruct (crossover_length (d_cross (rnd gen j)) pa pb G1 La Lb) as [Ca Cb].
      destruct (crossover cp (d_cross (rnd gen j)) pa pb) as [ca cb]. cbn [fst snd] in Ca, Cb.
      apply IH; auto.
      + intros x. rewrite in_app_iff. intros [H|[<-|[<-|[]]]]; [apply HA; exact H| |]; apply mutate_within; assumption.
      + rewrite app_length. cbn. lia.
  Qed.

  (** ** generations *)
  Variable fs : list (vec -> N).
  Hypothesis NN : forall f x, In f fs -> nisnan (f x) = false.
  Variable stop : list (nev N) -> bool.
  Variable sortp : (vec -> vec -> bool) -> list vec -> list vec.
  Hypothesis SP : forall c l, Permutation (sortp c l) l.
  Variable sorti : (nat -> nat -> bool) -> list nat -> list nat.

  Lemma objv_table : forall pop : list vec, table (length fs) (map (objv fs) pop).
  Proof.
    intros pop P H. apply in_map_iff in H. destruct H as (x & <- & _). split; [apply map_length|].
    intros a Ha. apply in_map_iff in Ha. destruct Ha as (f & <- & Hf). apply NN. exact Hf.
  Qed.

  Definition good_pop (pop : list vec) : Prop := length pop = n /\ forall x, In x pop -> within lo hi x.

  Lemma resize_firstn : forall {A} (a : A) k l, k <= length l -> resize a k l = firstn k l.
  Proof. intros A a k l H. unfold resize. replace (k - length l) with 0 by lia. apply app_nil_r. Qed.

  Lemma resize_length : forall {A} (a : A) k l, length (resize a k l) = k.
  Proof. intros A a k l. unfold resize. rewrite app_length, firstn_length, repeat_length. lia. Qed.

  (** the objectives of [parents] were evaluated, the fronts are theirs *)
  Record after (parents : list vec) (s : @nst N) : Prop := {
    a_par : n_parents s = parents;
    a_good : good_pop parents;
    a_objs : exists k, n_objs s = map (objv fs) parents ++ repeat (repeat n0 (length fs)) k /\ n <= k;
    a_fronts : pareto_fronts n (beats (map (objv fs) parents)) (n_fronts s)
  }.

  Lemma generation_ok : forall fuel gen x s, 4 <= n -> n < fuel -> good_pop (n_pop s) ->
    exists s', generation n cp mp ms eps fs rnd sortp sorti fuel gen lo hi x s = NRet s' /\
      good_pop (n_pop s') /\ after (n_pop s) s' /\
      n_tr s' = NGen x (n_objs s') (n_fronts s') :: n_tr s.
  Proof.
    intros fuel gen x s Hn HF [GL GW]. unfold generation.
    destruct (children_ok fuel gen 0 (n_pop s) []) as (cs & EC & LC & WC).
    { exact Hn. } { exact GL. }
    { intros y Hy. destruct (GW y Hy) as [L _]. destruct PB as [P1 _]. lia. }
    { intros y []. } { cbn. lia. }
    rewrite EC. cbv zeta.
    rewrite evaluate_table by (rewrite app_length; lia).
    assert (EF : firstn n (n_pop s ++ cs) = n_pop s).
    { rewrite firstn_app, GL, Nat.sub_diag. cbn. rewrite app_nil_r. apply firstn_all2. lia. }
    rewrite EF.
    set (tab := map (objv fs) (n_pop s)).
    set (objs := tab ++ repeat (repeat n0 (length fs)) (length (n_pop s ++ cs) - n)).
    assert (LT : length tab = n) by (unfold tab; rewrite map_length; exact GL).
    assert (DA : forall p q, p < n -> q < n -> dom_at objs p q = dom_at tab p q).
    { intros p q Hp Hq. unfold dom_at, objs. rewrite !app_nth1 by lia. reflexivity. }
    assert (TB : table (length fs) tab) by apply objv_table.
    assert (RW : forall i, i < n -> exists P, nth_error tab i = Some P /\ nth i tab [] = P /\ length P = length fs /\ no_nans P).
    { intros i Hi. destruct (nth_error tab i) as [P|] eqn:E; [|apply nth_error_None in E; lia].
      exists P. split; [reflexivity|]. split; [apply nth_error_nth; exact E|]. apply TB. eapply nth_error_In; eauto. }
    destruct (fnds_ok n (dom_at objs)) with (fuel := fuel) (ranks := resize 0 (length (n_pop s ++ cs)) (n_ranks s))
      as (fronts & ranks & EQ & PF & _).
    { intros p Hp. rewrite DA by assumption. apply dominates_irrefl. exact OL. }
    { intros p q r Hp Hq Hr. rewrite !DA by assumption. unfold dom_at.
      destruct (RW p Hp) as (P & _ & -> & ? & ?). destruct (RW q Hq) as (Q & _ & -> & ? & ?).
      destruct (RW r Hr) as (R & _ & -> & ? & ?). apply dominates_trans; auto; congruence. }
    { exact HF. }
    { rewrite resize_length, app_length. lia. }
    rewrite EQ. eexists. split; [reflexivity|]. cbn [n_pop n_objs n_fronts n_tr n_parents].
    match goal with |- context [resize [] n ?l] => set (sorted := l) end.
    assert (PS : Permutation sorted (n_pop s ++ cs)) by apply SP.
    assert (LS : n <= length sorted).
    { rewrite (Permutation_length PS), app_length. lia. }
    split; [|split; [|reflexivity]].
    - split; [apply resize_length|]. rewrite resize_firstn by exact LS. intros y Hy.
      assert (Iy : In y sorted) by (rewrite <- (firstn_skipn n sorted); apply in_or_app; left; exact Hy).
      apply (Permutation_in _ PS) in Iy. apply in_app_or in Iy. destruct Iy; [apply GW|apply WC]; assumption.
    - constructor; [reflexivity|split; assumption| |].
      + exists (length (n_pop s ++ cs) - n). split; [reflexivity|]. rewrite app_length. lia.
      + cbn [n_fronts]. fold tab.
        assert (BE : forall p q, p < n -> q < n -> (dom_at objs p q = true <-> beats tab p q)).
        { intros p q Hp Hq. rewrite DA by assumption. eapply dom_at_iff; eauto; lia. }
        assert (FL : forall k i, in_front fronts k i -> i < n).
        { intros k i Hk. apply (pf_all _ _ _ PF). apply in_front_concat. eauto. }
        destruct PF as [pa po ps pb pn]. constructor; auto.
        * intros k i j Hk Hj B. apply (pb k i j Hk Hj). apply BE; [exact Hj|eapply FL; eauto|exact B].
        * intros k i Hk. destruct (pn k i Hk) as (j & Hj & B). exists j. split; [exact Hj|].
          apply BE; [eapply FL; eauto|eapply FL; eauto|exact B].
  Qed.

  (** what the loop leaves behind; [h] is the history before the first generation *)
  Definition gens_tr (k : nat) (h tr : list (nev N)) : Prop :=
    exists gs, tr = gs ++ h /\ (forall e, In e gs -> is_gen e = true) /\ length gs <= k /\
      (* only the last one may have been followed by a request to stop *)
      (forall e newer older, gs ++ h = newer ++ e :: older -> is_gen e = true -> newer <> [] ->
         length older >= length h -> stop (e :: older) = false) /\
      (* and if the limit was not reached it was *)
      (length gs < k -> stop tr = true).

  Lemma generations_ok : forall k fuel gen x s, 4 <= n -> n < fuel -> good_pop (n_pop s) ->
    exists s', generations n cp mp ms eps fs stop rnd sortp sorti k fuel gen lo hi x false s = NRet s' /\
      good_pop (n_pop s') /\ (0 < k -> exists parents, after parents s') /\ (k = 0 -> s' = s) /\
      gens_tr k (n_tr s) (n_tr s').
  Proof.
    intros k; induction k as [|k IH]; intros fuel gen x s Hn HF GP.
    - exists s. cbn [generations]. split; [reflexivity|]. split; [exact GP|]. split; [lia|]. split; [reflexivity|].
      exists []. split; [reflexivity|]. split; [intros e []|]. split; [cbn; lia|].
      split; [|cbn; lia]. intros e newer older E _ NE LE. exfalso. cbn in E. rewrite E in LE.
      destruct newer; [congruence|]. cbn in LE. rewrite app_length in LE. cbn in LE. lia.
    - cbn [generations]. destruct (generation_ok fuel gen x s Hn HF GP) as (s1 & E1 & G1 & A1 & T1).
      rewrite E1. destruct (stop (n_tr s1)) eqn:ST1.
      + exists s1. assert (E2 : generations n cp mp ms eps fs stop rnd sortp sorti k fuel (gen + 1) lo hi x true s1 = NRet s1)
          by (destruct k; reflexivity). rewrite E2. split; [reflexivity|]. split; [exact G1|]. split; [eauto|]. split; [lia|].
        exists [NGen x (n_objs s1) (n_fronts s1)]. split; [exact T1|]. split; [intros e [<-|[]]; reflexivity|].
        split; [cbn; lia|]. split; [|intros _; exact ST1].
        intros e newer older E _ NE LE. exfalso. destruct newer as [|a newer]; [congruence|].
        cbn in E. injection E as _ E. rewrite E in LE. rewrite app_length in LE. cbn in LE. lia.
      + destruct (IH fuel (gen + 1) x s1 Hn HF G1) as (s2 & E2 & G2 & A2 & Z2 & gs & T2 & I2 & L2 & S2 & F2).
        exists s2. split; [exact E2|]. split; [exact G2|]. split.
        { intros _. destruct k as [|k]; [rewrite Z2 by reflexivity; eauto|]. apply A2. lia. }
        split; [lia|]. exists (gs ++ [NGen x (n_objs s1) (n_fronts s1)]).
        split; [rewrite T2, T1, <- app_assoc; reflexivity|]. split.
        { intros e. rewrite in_app_iff. intros [H|[<-|[]]]; [apply I2; exact H|reflexivity]. }
        split; [rewrite app_length; cbn; lia|]. split.
        { intros e newer older E GE NE LE. rewrite <- app_assoc in E. cbn [app] in E. rewrite <- T1 in E.
          destruct (Nat.lt_ge_cases (length older) (length (n_tr s1))) as [LO|LO].
          - (* the first generation itself *)
            assert (O1 : e :: older = n_tr s1).
            { assert (X : forall (A : Type) (a b c' d' : list A), a ++ b = c' ++ d' -> length b = length d' -> b = d').
              { clear. intros A a; induction a as [|y a IHa]; intros b [|z c'] d' E L; cbn in E.
                - exact E.
                - subst. cbn in L. rewrite app_length in L. lia.
                - subst. cbn in L. rewrite app_length in L. lia.
                - injection E as -> E. eapply IHa; eauto. }
              symmetry. eapply X; [exact E|]. rewrite T1 in LO |- *. cbn in *. lia. }
            rewrite O1. exact ST1.
          - eapply S2; eauto. }
        { rewrite app_length. cbn. intros H. rewrite T2 in F2. rewrite T2. apply F2. lia. }
  Qed.

  Lemma take_all_ok : forall {A} (a : A) (l : list A) idx, (forall i, In i idx -> i < length l) ->
    take_all l idx = Some (map (fun i => nth i l a) idx).
  Proof.
    intros A a l idx; induction idx as [|i idx IH]; intros H; [reflexivity|]. cbn.
    destruct (nth_error l i) as [b|] eqn:E.
    - rewrite IH by (intros j Hj; apply H; right; exact Hj). rewrite (nth_error_nth _ _ _ E). reflexivity.
    - apply nth_error_None in E. specialize (H i (or_introl eq_refl)). lia.
  Qed.

  Lemma performance_ok : forall (objs : list vec) b,
    let v := fold_left (fun best o => if nlt (vsum o) best then vsum o else best) objs b in
    (forall o, In o objs -> nlt (vsum o) v = false) /\
    (v = b \/ (nlt v b = true /\ exists o, In o objs /\ v = vsum o)).
  Proof.
    intros objs; induction objs as [|o objs IH]; intros b; cbn [fold_left].
    - cbv zeta. split; [intros o []|left; reflexivity].
    - destruct (IH (if nlt (vsum o) b then vsum o else b)) as (H2 & H3). cbv zeta in *.
      set (v := fold_left _ objs _) in *. clearbody v. destruct (nlt (vsum o) b) eqn:E.
      + split.
        * intros o' [<-|I]; [|apply H2; exact I]. destruct H3 as [->|[L _]]; [apply (ol_irrefl _ OL)|].
          apply (lt_asym OL). exact L.
        * right. destruct H3 as [->|[L (o' & I & W)]].
          -- split; [exact E|]. exists o. split; [left|]; reflexivity.
          -- split; [eapply (ol_trans _ OL); eauto|]. exists o'. split; [right; exact I|exact W].
      + split.
        * intros o' [<-|I]; [|apply H2; exact I]. destruct H3 as [->|[L _]]; [exact E|].
          destruct (nlt (vsum o) v) eqn:F; [|reflexivity]. rewrite <- E. symmetry. eapply (ol_trans _ OL); eauto.
        * destruct H3 as [->|[L (o' & I & W)]]; [left; reflexivity|]. right. split; [exact L|].
          exists o'. split; [right; exact I|exact W].
  Qed.
End P.

Section Run.
  Context {N : Num}.
  Variable OL : OrdLaws N.
  Notation vec := (list N).

  Lemma optimize_ok : forall n maxGen (cp mp ms eps : N) (lb ub : vec) fs stop init rnd sortp sorti fuel x,
    nsga2_good n maxGen lb ub fs init rnd sortp fuel x ->
    exists r, optimize n maxGen cp mp ms eps lb ub fs stop init rnd sortp sorti fuel x = NRet r /\
      reported n maxGen lb ub fs stop x r.
  Proof.
    intros n maxGen cp mp ms eps lb ub fs stop init rnd sortp sorti fuel x [Gn Gg Gb Gi Gd Gnan Gs Gf].
    unfold optimize. replace (Nat.ltb n 4) with false by (symmetry; apply Nat.ltb_ge; exact Gn). cbn [andb].
    set (lo := spread (length x) lb) in *. set (hi := spread (length x) ub) in *.
    destruct Gb as (B1 & B2 & B3).
    match goal with |- context [generations _ _ _ _ _ _ _ _ _ _ _ _ _ _ _ _ _ ?z] => set (s0 := z) end.
    destruct (generations_ok OL n cp mp ms eps lo hi (length x) (conj B1 (conj B2 B3)) rnd Gd fs Gnan stop sortp Gs sorti
                maxGen fuel 1 x s0) as (s & E & [GL GW] & A & _ & gs & T & I & L & S & F).
    { exact Gn. } { exact Gf. }
    { split; [unfold s0; cbn; rewrite map_length, seq_length; reflexivity|].
      unfold s0; cbn [n_pop]. intros p Hp. apply in_map_iff in Hp. destruct Hp as (i & <- & _).
      apply (clip_within OL); [lia| |exact B3]. unfold vadd. rewrite map2_length, map_length, Gi. lia. }
    rewrite E. destruct (A ltac:(lia)) as (parents & [AP [PL PW] (k & AO & Ak) PF]).
    assert (FR : exists i r rest, n_fronts s = (i :: r) :: rest).
    { assert (H0 : In 0 (concat (n_fronts s))) by (apply (pf_all _ _ _ PF); lia).
      destruct (n_fronts s) as [|[|i r] rest] eqn:EF; [destruct H0| |eauto].
      exfalso. apply (pf_some _ _ _ PF []); [left; reflexivity|reflexivity]. }
    destruct FR as (i & rr & rest & FR). rewrite FR. set (idx := i :: rr) in *.
    assert (F0 : forall j, In j idx <-> in_front (n_fronts s) 0 j).
    { intros j. unfold in_front. rewrite FR. cbn. split; [eauto|]. intros (G & [= <-] & H). exact H. }
    assert (IL : forall j, In j idx -> j < n).
    { intros j Hj. apply (pf_all _ _ _ PF). apply in_front_concat. exists 0. apply F0. exact Hj. }
    rewrite (take_all_ok [] (n_pop s)) by (intros j Hj; rewrite GL; apply IL; exact Hj).
    rewrite (take_all_ok [] (n_objs s)) by (intros j Hj; rewrite AO, app_length, map_length, PL; apply IL in Hj; lia).
    eexists. split; [reflexivity|]. unfold reported. cbn [r_set r_front r_x r_val r_pop r_parents r_tr].
    rewrite AP. fold lo hi. split; [exact PL|]. split; [exact GL|].
    assert (WS : forall p, In p (map (fun j => nth j (n_pop s) []) idx) -> within lo hi p).
    { intros p Hp. apply in_map_iff in Hp. destruct Hp as (j & <- & Hj). apply GW. apply nth_In. rewrite GL. apply IL; exact Hj. }
    split.
    { intros p [<-|Hp]; [apply WS; left; reflexivity|]. rewrite !in_app_iff in Hp.
      destruct Hp as [Hp|[Hp|Hp]]; [apply WS|apply GW|apply PW]; exact Hp. }
    split.
    { exists idx. split; [discriminate|]. split.
      { assert (ND := pf_once _ _ _ PF). rewrite FR in ND. cbn [concat] in ND. apply nodup_app_l in ND. exact ND. }
      split; [|split; [|reflexivity]].
      - intros j. split.
        + intros Hj. split; [rewrite PL; apply IL; exact Hj|]. intros q B.
          assert (Hq : q < n).
          { destruct B as (P & Q & EP & _). rewrite <- PL. rewrite <- (map_length (objv fs)). apply nth_error_Some. congruence. }
          destruct (pf_before _ _ _ PF 0 j q) as (k' & Lk & _); [apply F0; exact Hj|exact Hq|exact B|lia].
        + intros [Hj NB]. rewrite PL in Hj. apply F0.
          assert (Hc : In j (concat (n_fronts s))) by (apply (pf_all _ _ _ PF); exact Hj).
          apply in_front_concat in Hc. destruct Hc as [[|k'] Hk]; [exact Hk|].
          destruct (pf_next _ _ _ PF k' j Hk) as (q & _ & B). destruct (NB q B).
      - apply map_ext_in. intros j Hj. rewrite AO. rewrite app_nth1 by (rewrite map_length, PL; apply IL; exact Hj).
        rewrite (nth_indep _ _ (objv fs [])) by (rewrite map_length, PL; apply IL; exact Hj). apply map_nth. }
    split; [reflexivity|].
    destruct (performance_ok OL (n_objs s) nmax) as [P1 P2]. cbv zeta in P1, P2. fold (performance (n_objs s)) in P1, P2.
    split; [|split; [|split]].
    - intros p Hp. apply P1. rewrite AO. apply in_or_app. left. apply in_map. exact Hp.
    - apply P1. rewrite AO. apply in_or_app. right. destruct k; [lia|]. left. reflexivity.
    - destruct P2 as [P2|[_ (o & Io & P2)]]; [left; exact P2|]. right. rewrite AO in Io. apply in_app_or in Io.
      destruct Io as [Io|Io].
      + right. apply in_map_iff in Io. destruct Io as (p & <- & Hp). eauto.
      + left. apply repeat_spec in Io. subst o. exact P2.
    - exists gs. unfold s0 in T, S. cbn [n_tr] in T, S. split.
      { cbn [rev]. rewrite T, rev_app_distr. cbn. reflexivity. }
      split; [exact I|]. split; [exact L|]. split.
      + intros e newer older EE NE. subst gs. apply (S e newer (older ++ [NBegin x])).
        * rewrite <- app_assoc. reflexivity.
        * apply I. apply in_or_app. right. left. reflexivity.
        * exact NE.
        * rewrite app_length. cbn. lia.
      + intros H. rewrite <- T. apply F. exact H.
  Qed.
End Run.
