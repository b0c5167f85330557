From Coq Require Import List Arith Bool Lia ZArith.
From Verif.Base Require Import Num Vec Instances.
From Verif.Model Require Import Common SA PSO.
From Verif.Spec Require Import CommonSpec DESpec PSOSpec.
From Verif.Proof Require Import SAProof DEProof.
Import ListNotations.

Lemma nth_error_Some_bound {A} (l : list A) n x : nth_error l n = Some x -> n < length l.
Proof. intros H. apply nth_error_Some. congruence. Qed.

Section PSO.
  Context {N : Num}.
  Notation vec := (list N).
  Notation ev := (ev N vec vec).
  Variables (maxIterations horizonSize : nat) (impTolerance : N).
  Variable f : vec -> N.
  Variable velocity : nat -> list vec -> list vec -> list vec -> list N -> list vec.
  Variable cb : CB N vec vec.
  Variable O : OrdLaws N.

  Lemma pso_eval_ok : forall brk pos pb tr pb' fit' tr' t', length pb = length pos ->
    pso_eval f cb brk pos pb (map f pb) tr false = (pb', fit', tr', t') ->
    exists m m', tr' = rev (seen f (firstn m pos)) ++ tr /\ improved f m' pos pb pb' /\ fit' = map f pb' /\
      (m = length pos /\ m' = m \/ t' = true /\ 0 < m <= length pos /\ m - 1 <= m' <= m) /\
      (t' = true -> asked cb (rev tr')).
  Proof.
    intros brk. induction pos as [|y pos IH]; intros pb tr pb' fit' tr' t' L E.
    - destruct pb; [|discriminate]. cbn in E. injection E as <- <- <- <-. exists 0, 0. cbn.
      split; [reflexivity|]. split; [split; [reflexivity|intros [|j] ? ? H; discriminate]|]. split; [reflexivity|].
      split; [left; auto|discriminate].
    - destruct pb as [|b pb]; [discriminate|]. injection L as L. cbn [pso_eval map] in E.
      set (tr1 := Ev y (f y) :: tr) in *.
      assert (A1 : cs_stop cb tr1 = true -> asked cb (rev tr1)) by (intros; apply asked_now; auto).
      destruct (brk && cs_stop cb tr1) eqn:Q.
      + injection E as <- <- <- <-. apply andb_true_iff in Q as [-> Q]. rewrite Q. exists 1, 0. split; [reflexivity|].
        split. { split; [reflexivity|]. intros j y0 b0 H1 H2. exact H2. }
        split; [reflexivity|]. split; [right; simpl; lia|]. auto.
      + destruct (cs_stop cb tr1) eqn:S1.
        * (* the remaining particles are skipped *)
          assert (SK : pso_eval f cb brk pos pb (map f pb) tr1 true = (pb, map f pb, tr1, true)).
          { destruct pos, pb; reflexivity. }
          rewrite SK in E. exists 1, 1.
          assert (X : (if nlt (f y) (f b) then (y :: pb, f y :: map f pb, tr1, true) else (b :: pb, f b :: map f pb, tr1, true)) = (pb', fit', tr', t')) by exact E.
          clear E. split; [destruct (nlt (f y) (f b)); injection X as <- <- <- <-; reflexivity|].
          split. { split; [destruct (nlt (f y) (f b)); injection X as <- <- <- <-; reflexivity|].
            intros [|j] y0 b0 H1 H2; cbn in H1, H2 |- *.
            - injection H1 as <-. injection H2 as <-. destruct (nlt (f y) (f b)); injection X as <- <- <- <-; reflexivity.
            - destruct (nlt (f y) (f b)); injection X as <- <- <- <-; exact H2. }
          split; [destruct (nlt (f y) (f b)); injection X as <- <- <- <-; reflexivity|].
          split; [right; split; [destruct (nlt (f y) (f b)); congruence|simpl; lia]|].
          intros _. destruct (nlt (f y) (f b)); injection X as <- <- <- <-; auto.
        * destruct (pso_eval f cb brk pos pb (map f pb) tr1 false) as [[[pb2 fit2] tr2] t2] eqn:E2.
          destruct (IH pb tr1 pb2 fit2 tr2 t2 L E2) as (m & m' & H1 & [H2 H2'] & H3 & H4 & H5).
          exists (S m), (S m').
          assert (X : (pb', fit', tr', t') = (if nlt (f y) (f b) then y :: pb2 else b :: pb2, if nlt (f y) (f b) then f y :: fit2 else f b :: fit2, tr2, t2)).
          { rewrite <- E. destruct (nlt (f y) (f b)); reflexivity. }
          injection X as -> -> -> ->. split; [rewrite H1; cbn [firstn seen map rev]; rewrite <- app_assoc; reflexivity|].
          split. { split; [destruct (nlt (f y) (f b)); simpl; congruence|].
            intros [|j] y0 b0 J1 J2; cbn in J1, J2.
            - injection J1 as <-. injection J2 as <-. change (0 <? S m') with true. cbn [andb].
              destruct (nlt (f y) (f b)); reflexivity.
            - specialize (H2' j y0 b0 J1 J2). change (S j <? S m') with (j <? m'). destruct (nlt (f y) (f b)); exact H2'. }
          split; [rewrite H3; destruct (nlt (f y) (f b)); reflexivity|].
          split; [destruct H4 as [[? ?]|(? & ? & ?)]; [left; simpl; lia|right; simpl; split; [assumption|lia]]|exact H5].
  Qed.

  Lemma pso_best_ok : forall (fit : list N) j bp bf bp' bf', pso_best j fit bp bf = (bp', bf') ->
    ((bp', bf') = (bp, bf) \/ (j <= bp' /\ nth_error fit (bp' - j) = Some bf' /\ nlt bf' bf = true)) /\
    (forall v, In v fit -> nlt v bf' = false).
  Proof.
    induction fit as [|v fit IH]; intros j bp bf bp' bf' E; cbn [pso_best] in E.
    - injection E as <- <-. split; [left; reflexivity|intros v []].
    - destruct (nlt v bf) eqn:Q.
      + destruct (IH _ _ _ _ _ E) as [A B]. split.
        * right. destruct A as [A|(A1 & A2 & A3)].
          -- injection A as -> ->. split; [lia|]. rewrite Nat.sub_diag. auto.
          -- split; [lia|]. replace (bp' - j) with (S (bp' - S j)) by lia. split; [exact A2|]. eapply (ol_trans _ O); eauto.
        * intros w [<-|W]; [|auto]. destruct A as [A|(A1 & A2 & A3)].
          -- injection A as -> ->. apply (ol_irrefl _ O).
          -- apply (ol_le_not_lt _ O). apply (ol_lt_le _ O). exact A3.
      + destruct (IH _ _ _ _ _ E) as [A B]. split.
        * destruct A as [A|(A1 & A2 & A3)]; [left; exact A|right].
          split; [lia|]. replace (bp' - j) with (S (bp' - S j)) by lia. auto.
        * intros w [<-|W]; [|auto]. destruct A as [A|(A1 & A2 & A3)]; [injection A as -> ->; exact Q|].
          destruct (nlt v bf') eqn:K; [|reflexivity]. rewrite (ol_trans _ O _ _ _ K A3) in Q. discriminate.
  Qed.

  Record PInv (s : pst) : Prop := {
    pi_len : length (p_pb s) = length (p_pos s);
    pi_fit : p_fit s = map f (p_pb s);
    pi_fin : exists b, In b (p_pb s) /\ nlt (f b) nmax = true;
    (* the best so far is a member (or none was determined yet) *)
    pi_best : p_bf s = nmax \/ (exists b, nth_error (p_pb s) (p_bp s) = Some b /\ p_bf s = f b)
  }.

  Lemma improved_le : forall m pos pb pb', length pb = length pos -> improved f m pos pb pb' ->
    forall j b, nth_error pb j = Some b -> exists b', nth_error pb' j = Some b' /\ (b' = b \/ nlt (f b') (f b) = true).
  Proof.
    intros m pos pb pb' L [L' H] j b B.
    destruct (nth_error pos j) as [y|] eqn:Y; [|apply nth_error_None in Y; assert (j < length pb) by (apply nth_error_Some; congruence); lia].
    rewrite (H j y b Y B). destruct (j <? m); cbn [andb]; [|eauto]. destruct (nlt (f y) (f b)) eqn:Q; eauto.
  Qed.

  Variable HV : forall it pos vel pb fit, length (velocity it pos vel pb fit) = length pos.

  Lemma pso_iter_ok : forall brk it s, PInv s -> exists s' t m m' b,
    pso_iter f velocity cb brk it s = Some (s', t) /\
    PInv s' /\ p_tr s' = St b :: rev (seen f (firstn m (p_pos s))) ++ p_tr s /\
    improved f m' (p_pos s) (p_pb s) (p_pb s') /\ is_best f (p_pb s') b /\
    p_vel s' = velocity it (p_pos s) (p_vel s) (p_pb s') (map f (p_pb s')) /\ p_pos s' = map2 vadd (p_pos s) (p_vel s') /\
    (m = length (p_pos s) /\ m' = m \/ t = true /\ 0 < m <= length (p_pos s) /\ m - 1 <= m' <= m) /\
    nth_error (p_pb s') (p_bp s') = Some b /\ p_bf s' = f b /\ (t = true -> asked cb (rev (p_tr s'))).
  Proof.
    intros brk it s [L F [b0 [B1 B2]] PB]. unfold pso_iter. rewrite F.
    destruct (pso_eval _ _ _ _ _ _ _ _) as [[[pb fit] tr] t] eqn:EV.
    destruct (pso_eval_ok _ _ _ _ _ _ _ _ L EV) as (m & m' & H1 & H2 & H3 & H4 & H5).
    rewrite H3 in *. clear H3 EV fit.
    destruct (pso_best 0 (map f pb) (p_bp s) (p_bf s)) as [bp bf] eqn:EB.
    destruct (pso_best_ok _ _ _ _ _ _ EB) as [C1 C2].
    (* some personal best is below nmax *)
    assert (FIN : exists b, In b pb /\ nlt (f b) nmax = true).
    { apply In_nth_error in B1 as (j & J). destruct (improved_le _ _ _ _ L H2 j b0 J) as (b' & J' & [->|Q]).
      - exists b0. split; [eapply nth_error_In; eauto|exact B2].
      - exists b'. split; [eapply nth_error_In; eauto|]. eapply (ol_trans _ O); eauto. }
    assert (MEM : exists b, nth_error pb bp = Some b /\ bf = f b).
    { destruct C1 as [C1|(_ & C1 & _)].
      - injection C1 as -> ->. destruct PB as [PB|(b & PB1 & PB2)].
        + exfalso. destruct FIN as (b & FB1 & FB2). specialize (C2 (f b) (in_map f _ _ FB1)). rewrite PB in C2. congruence.
        + destruct (improved_le _ _ _ _ L H2 _ _ PB1) as (b' & J' & [->|Q]); [eauto|].
          exfalso. assert (In b' pb) by (eapply nth_error_In; eauto). specialize (C2 (f b') (in_map f _ _ H)). rewrite PB2 in C2. congruence.
      - rewrite Nat.sub_0_r, nth_error_map in C1. destruct (nth_error pb bp) as [b|]; [|discriminate]. injection C1 as <-. eauto. }
    destruct MEM as (b & M1 & M2). rewrite M1.
    eexists _, _, m, m', b. split; [reflexivity|]. cbn [p_pos p_vel p_pb p_fit p_bp p_bf p_tr].
    split. { split; cbn [p_pos p_vel p_pb p_fit p_bp p_bf p_tr]; auto; [|right; eauto].
      destruct H2 as [H2 _]. rewrite H2, map2_length, HV. lia. }
    split; [rewrite H1; reflexivity|]. split; [exact H2|].
    split. { split; [eapply nth_error_In; eauto|]. intros y Y. rewrite <- M2. apply C2. apply in_map. exact Y. }
    split; [reflexivity|]. split; [reflexivity|].
    split; [destruct H4 as [?|(-> & ? & ?)]; [left; assumption|right; auto]|]. split; [exact M1|]. split; [exact M2|].
    intros Q. apply orb_true_iff in Q as [Q|Q].
    - apply (asked_ext cb tr [St b]). auto.
    - apply asked_now; auto.
  Qed.

  Notation Reason h full tr := (asked cb (rev tr) \/
     exists a c, h <= length full /\ nth_error full (length full - h) = Some a /\ nth_error full (length full - 1) = Some c /\ nlt (nsub a c) impTolerance = true).

  (** what the loops do from state s *)
  Definition does (h it n : nat) (s : pst) (q : list N) (s' : pst) : Prop :=
    PInv s' /\ exists es bs, length bs <= n /\ p_tr s' = rev es ++ p_tr s /\
      iterations f velocity it (p_pos s) (p_vel s) (p_pb s) es bs (p_pb s') /\
      (bs = [] /\ s' = s \/ exists b, nth_error bs (length bs - 1) = Some b /\ nth_error (p_pb s') (p_bp s') = Some b /\ p_bf s' = f b /\ is_best f (p_pb s') b) /\
      (length bs = n \/ Reason h (q ++ map f bs) (p_tr s')).

  Lemma does_none : forall h it n s q, PInv s -> n = 0 \/ Reason h q (p_tr s) -> does h it n s q s.
  Proof.
    intros h it n s q I R. split; [exact I|]. exists [], []. split; [simpl; lia|]. split; [reflexivity|]. split; [constructor|].
    split; [left; auto|]. cbn [map]. rewrite app_nil_r. destruct R as [->|R]; [left; reflexivity|right; exact R].
  Qed.

  Lemma does_more : forall brk h it n s s1 t q s', PInv s -> pso_iter f velocity cb brk it s = Some (s1, t) ->
    (does h (S it) n s1 (q ++ [p_bf s1]) s') -> (t = true -> s' = s1) ->
    does h it (S n) s q s'.
  Proof.
    intros brk h it n s s1 t q s' I E (I' & es & bs & D1 & D2 & D3 & D4 & D5) T.
    destruct (pso_iter_ok brk it s I) as (s1' & t' & m & m' & b & E' & J1 & J2 & J3 & J4 & J5 & J6 & J7 & J8 & J9 & J10).
    rewrite E in E'. injection E' as <- <-. split; [exact I'|].
    exists (seen f (firstn m (p_pos s)) ++ St b :: es), (b :: bs). split; [simpl; lia|].
    split. { rewrite D2, J2. rewrite rev_app_distr. cbn [rev]. rewrite <- !app_assoc. reflexivity. }
    split. { apply it_more with (m' := m') (pb1 := p_pb s1).
      - destruct J7 as [J7|(J7 & J7' & J7'')]; [left; exact J7|right]. split; [exact J7'|]. split; [exact J7''|].
        specialize (T J7). subst s'. apply (f_equal (@length _)) in D2. rewrite app_length, rev_length in D2. destruct es; [reflexivity|simpl in D2; lia].
      - exact J3.
      - exact J4.
      - rewrite <- J5. rewrite <- J6. exact D3. }
    split. { right. destruct D4 as [(-> & ->)|(b2 & D4)].
      - exists b. cbn. auto.
      - exists b2. destruct D4 as (D4 & D4'). split; [|exact D4']. destruct bs as [|c bs]; [discriminate|].
        cbn [length] in *. rewrite Nat.sub_succ, Nat.sub_0_r in *. exact D4. }
    cbn [length map]. rewrite <- J9. rewrite <- app_assoc in D5. cbn [app] in D5. destruct D5 as [D5|D5]; [left; lia|right; exact D5].
  Qed.

  Lemma pso_rest_ok : forall k it s term q h, PInv s -> (term = true -> asked cb (rev (p_tr s))) ->
    forall pre, (term = false -> k <> 0 -> 0 < length q /\ h = length q) ->
    exists s', pso_rest impTolerance f velocity cb k it s term q = Some s' /\ does h it k s (pre ++ q) s' /\ (term = true -> s' = s).
  Proof.
    induction k as [|k IH]; intros it s term q h I T pre H; cbn [pso_rest].
    - exists s. split; [destruct term; reflexivity|]. split; [|auto]. apply does_none; auto.
    - destruct term.
      + exists s. split; [reflexivity|]. split; [|auto]. apply does_none; auto.
      + destruct (H eq_refl ltac:(discriminate)) as [HQ ->]. destruct q as [|a q]; [simpl in HQ; lia|].
        destruct (nlt _ impTolerance) eqn:Q.
        * exists s. split; [reflexivity|]. split; [|discriminate]. apply does_none; [exact I|]. right. right.
          exists a, (last (a :: q) a). rewrite app_length. split; [simpl; lia|].
          split. { replace (length pre + length (a :: q) - length (a :: q)) with (length pre) by lia.
                   rewrite nth_error_app2, Nat.sub_diag by lia. reflexivity. }
          split; [|exact Q].
          rewrite nth_error_app2 by (simpl; lia).
          replace (length pre + length (a :: q) - 1 - length pre) with (length (a :: q) - 1) by (simpl; lia).
          destruct (exists_last (l := a :: q) ltac:(discriminate)) as (l' & z & ->). rewrite last_last, app_length. cbn [length].
          rewrite nth_error_app2 by lia. replace (length l' + 1 - 1 - length l') with 0 by lia. reflexivity.
        * destruct (pso_iter_ok false it s I) as (s1 & t & m & m' & b & E & J1 & J2 & J3 & J4 & J5 & J6 & J7 & J8 & J9 & J10).
          rewrite E.
          destruct (IH (S it) s1 t (tl (a :: q) ++ [p_bf s1]) (length (a :: q)) J1 J10 (pre ++ [a])) as (s' & E' & D & T').
          { intros _ _. cbn [tl]. rewrite app_length. simpl. lia. }
          exists s'. split; [exact E'|]. split; [|discriminate].
          eapply does_more; eauto. replace ((pre ++ a :: q) ++ [p_bf s1]) with ((pre ++ [a]) ++ tl (a :: q) ++ [p_bf s1]); [exact D|].
          cbn [tl]. rewrite <- !app_assoc. reflexivity.
  Qed.

  Lemma pso_loops_ok : forall k r it s term q h, PInv s -> (term = true -> asked cb (rev (p_tr s))) ->
    0 < h -> h = length q + k ->
    exists s' s1 t1 it1 q1, pso_horizon f velocity cb k it s term q = Some (s1, t1, it1, q1) /\
      pso_rest impTolerance f velocity cb r it1 s1 t1 q1 = Some s' /\
      does h it (k + r) s q s' /\ (term = true -> s' = s).
  Proof.
    induction k as [|k IH]; intros r it s term q h I T H0 H; cbn [pso_horizon].
    - destruct (pso_rest_ok r it s term q h I T [] ltac:(lia)) as (s' & E & D & T').
      exists s', s, term, it, q. split; [destruct term; reflexivity|]. auto.
    - destruct term.
      + destruct (pso_rest_ok r it s true q h I T [] ltac:(discriminate)) as (s' & E & D & T').
        exists s', s, true, it, q. split; [reflexivity|]. split; [exact E|]. split; [|exact T'].
        rewrite (T' eq_refl). apply does_none; auto.
      + destruct (pso_iter_ok true it s I) as (s1 & t & m & m' & b & E & J1 & J2 & J3 & J4 & J5 & J6 & J7 & J8 & J9 & J10).
        rewrite E.
        destruct (IH r (S it) s1 t (q ++ [p_bf s1]) h J1 J10 H0) as (s' & s2 & t2 & it2 & q2 & E1 & E2 & D & T').
        { rewrite app_length. simpl. lia. }
        exists s', s2, t2, it2, q2. split; [exact E1|]. split; [exact E2|]. split; [|discriminate].
        cbn [plus]. eapply does_more; eauto.
  Qed.

  Lemma pso_first_ok : forall pos tr, (forall j, j < length pos -> cs_stop cb (rev (seen f (firstn (S j) pos)) ++ tr) = false) ->
    pso_first f cb pos tr false = (map f pos, rev (seen f pos) ++ tr, false).
  Proof.
    induction pos as [|y pos IH]; intros tr H; [reflexivity|]. cbn [pso_first].
    pose proof (H 0 ltac:(simpl; lia)) as H0. cbn in H0. rewrite H0. rewrite (IH (Ev y (f y) :: tr)).
    - cbn [seen map rev]. rewrite <- app_assoc. reflexivity.
    - intros j Hj. specialize (H (S j) ltac:(simpl; lia)). change (firstn (S (S j)) (y :: pos)) with (y :: firstn (S j) pos) in H.
      cbn [seen map rev] in H. rewrite <- app_assoc in H. exact H.
  Qed.

  Theorem pso_ok : forall pos0 vel0 x, 0 < horizonSize -> horizonSize <= maxIterations ->
    (exists y, In y pos0 /\ nlt (f y) nmax = true) ->
    (forall j, j < length pos0 -> cs_stop cb (rev (seen f (firstn (S j) pos0)) ++ [Begin x]) = false) ->
    exists r es bs pb, pso_optimize maxIterations horizonSize impTolerance f velocity cb pos0 vel0 x = Some (Ret r) /\
      o_tr r = Begin x :: seen f pos0 ++ es ++ [End (o_x r)] /\
      iterations f velocity 0 pos0 vel0 pos0 es bs pb /\
      nth_error bs (length bs - 1) = Some (o_x r) /\ is_best f pb (o_x r) /\ o_val r = f (o_x r) /\
      0 < length bs <= maxIterations /\
      (length bs = maxIterations \/ asked cb (o_tr r) \/
       exists a c, horizonSize <= length bs /\ nth_error bs (length bs - horizonSize) = Some a /\ nth_error bs (length bs - 1) = Some c /\
         nlt (nsub (f a) (f c)) impTolerance = true).
  Proof.
    intros pos0 vel0 x H0 H1 HF HS. unfold pso_optimize. destruct (Nat.ltb_spec maxIterations horizonSize); [lia|].
    rewrite (pso_first_ok _ _ HS).
    set (s := {| p_pos := pos0; p_vel := vel0; p_pb := pos0; p_fit := map f pos0; p_bp := 0; p_bf := nmax; p_tr := rev (seen f pos0) ++ [Begin x] |}).
    assert (I : PInv s) by (split; cbn; auto).
    destruct (pso_loops_ok horizonSize (maxIterations - horizonSize) 0 s false [] horizonSize I ltac:(discriminate) H0 eq_refl)
      as (s' & s1 & t1 & it1 & q1 & E1 & E2 & (I' & es & bs & D1 & D2 & D3 & D4 & D5) & _).
    rewrite E1, E2. cbn [app] in D5.
    replace (horizonSize + (maxIterations - horizonSize)) with maxIterations in * by lia.
    (* at least one iteration was made *)
    destruct D4 as [(Z & Z')|(b & D4 & D6 & D7 & D8)].
    { exfalso. subst bs s'. destruct horizonSize as [|hz]; [lia|]. cbn [pso_horizon] in E1.
      destruct (pso_iter_ok true 0 s I) as (u & t & m & m' & b & E & _ & J2 & _).
      rewrite E in E1. cbn [length] in *.
      destruct D5 as [D5|D5]; [lia|].
      (* asked / horizon both impossible or contradictory: the trace grew *)
      assert (G : forall k it u t q s1 t1 it1 q1, pso_horizon f velocity cb k it u t q = Some (s1, t1, it1, q1) -> length (p_tr u) <= length (p_tr s1)).
      { assert (GI : forall brk it u v t, pso_iter f velocity cb brk it u = Some (v, t) -> length (p_tr u) <= length (p_tr v)).
        { assert (GE : forall brk pos pb fit tr tm pb' fit' tr' t', pso_eval f cb brk pos pb fit tr tm = (pb', fit', tr', t') -> length tr <= length tr').
          { intros brk. induction pos as [|y pos IHp]; intros pb fit tr tm pb' fit' tr' t' X; [cbn in X; injection X as <- <- <- <-; lia|].
            destruct pb as [|b1 pb1], fit as [|v1 fit1]; try (cbn in X; injection X as <- <- <- <-; lia). cbn [pso_eval] in X.
            destruct tm; [injection X as <- <- <- <-; lia|]. destruct (brk && _); [injection X as <- <- <- <-; simpl; lia|].
            destruct (pso_eval f cb brk pos pb1 fit1 _ _) as [[[pb2 fit2] tr2] t2] eqn:X2. apply IHp in X2. simpl in X2.
            destruct (nlt _ _); injection X as <- <- <- <-; lia. }
          intros brk it w v t2 X. unfold pso_iter in X. destruct (pso_eval _ _ _ _ _ _ _ _) as [[[pb fit] tr] tt] eqn:X1. apply GE in X1.
          destruct (pso_best _ _ _ _) as [bp bf]. destruct (nth_error pb bp); [|discriminate]. injection X as <- <-. simpl. lia. }
        induction k as [|k IHk]; intros it w t2 q s2 t3 it2 q2 X; cbn [pso_horizon] in X; [destruct t2; injection X as <- <- <- <-; lia|].
        destruct t2; [injection X as <- <- <- <-; lia|]. destruct (pso_iter _ _ _ _ _ w) as [[w' t4]|] eqn:X1; [|discriminate].
        apply GI in X1. apply IHk in X. lia. }
      apply G in E1. rewrite J2 in E1. simpl in E1. rewrite app_length in E1.
      assert (G2 : forall k it u t q s', pso_rest impTolerance f velocity cb k it u t q = Some s' -> length (p_tr u) <= length (p_tr s')).
      { clear - O. assert (GI : forall brk it u v t, pso_iter f velocity cb brk it u = Some (v, t) -> length (p_tr u) <= length (p_tr v)).
        { assert (GE : forall brk pos pb fit tr tm pb' fit' tr' t', pso_eval f cb brk pos pb fit tr tm = (pb', fit', tr', t') -> length tr <= length tr').
          { intros brk. induction pos as [|y pos IHp]; intros pb fit tr tm pb' fit' tr' t' X; [cbn in X; injection X as <- <- <- <-; lia|].
            destruct pb as [|b1 pb1], fit as [|v1 fit1]; try (cbn in X; injection X as <- <- <- <-; lia). cbn [pso_eval] in X.
            destruct tm; [injection X as <- <- <- <-; lia|]. destruct (brk && _); [injection X as <- <- <- <-; simpl; lia|].
            destruct (pso_eval f cb brk pos pb1 fit1 _ _) as [[[pb2 fit2] tr2] t2] eqn:X2. apply IHp in X2. simpl in X2.
            destruct (nlt _ _); injection X as <- <- <- <-; lia. }
          intros brk it w v t2 X. unfold pso_iter in X. destruct (pso_eval _ _ _ _ _ _ _ _) as [[[pb fit] tr] tt] eqn:X1. apply GE in X1.
          destruct (pso_best _ _ _ _) as [bp bf]. destruct (nth_error pb bp); [|discriminate]. injection X as <- <-. simpl. lia. }
        induction k as [|k IHk]; intros it w t2 q s2 X; cbn [pso_rest] in X; [destruct t2; injection X as <-; lia|].
        destruct t2; [injection X as <-; lia|]. destruct q; [discriminate|]. destruct (nlt _ _); [injection X as <-; lia|].
        destruct (pso_iter _ _ _ _ _ w) as [[w' t4]|] eqn:X1; [|discriminate]. apply GI in X1. apply IHk in X. lia. }
      apply G2 in E2. subst s. simpl in *. lia. }
    rewrite D6. eexists _, es, bs, (p_pb s'). split; [reflexivity|]. cbn [o_tr o_x o_val].
    assert (TR : rev (End b :: p_tr s') = Begin x :: seen f pos0 ++ es ++ [End b]).
    { rewrite D2. unfold s. cbn [rev p_tr]. rewrite !rev_app_distr, !rev_involutive. cbn [rev app]. rewrite <- !app_assoc. reflexivity. }
    split; [exact TR|]. split; [exact D3|]. split; [exact D4|]. split; [exact D8|]. split; [exact D7|].
    split; [destruct bs; [discriminate|simpl in *; lia]|].
    destruct D5 as [D5|[D5|(a & c & A1 & A2 & A3 & A4)]]; [left; exact D5|right; left|right; right].
    - apply (asked_ext cb (p_tr s') [End b]). exact D5.
    - rewrite map_length in A1, A2, A3. rewrite nth_error_map in A2, A3.
      destruct (nth_error bs (length bs - horizonSize)) as [a'|]; [|discriminate].
      destruct (nth_error bs (length bs - 1)) as [c'|]; [|discriminate]. injection A2 as <-. injection A3 as <-. eauto 10.
  Qed.

  Section NoNaN.
  Variable NN : forall x, nisnan (f x) = false.

  Lemma iterations_mono : forall it pos vel pb es bs pb', iterations f velocity it pos vel pb es bs pb' ->
    length pb = length pos ->
    (forall j b, nth_error pb j = Some b -> exists b', nth_error pb' j = Some b' /\ nle (f b') (f b) = true) /\
    (forall l1 y v l2, es = l1 ++ Ev y v :: l2 -> 1 < length l2 -> v = f y /\ exists b', In b' pb' /\ nle (f b') (f y) = true).
  Proof.
    induction 1 as [it pos vel pb|it pos vel pb m m' pb1 b es bs pb' HM HI HB HR IH]; intros L.
    - split; [|intros [|? l1] y v l2 X; discriminate X]. intros j b H. exists b. split; [exact H|].
      apply (ol_total _ O); auto. apply (ol_irrefl _ O).
    - destruct IH as [IH1 IH2].
      { destruct HI as [HI _]. rewrite HI, map2_length, HV. lia. }
      split.
      + intros j b1 B. destruct (improved_le _ _ _ _ L HI j b1 B) as (b2 & B2 & B3).
        destruct (IH1 j b2 B2) as (b3 & B4 & B5). exists b3. split; [exact B4|]. destruct B3 as [->|B3]; [exact B5|].
        eapply (ol_le_trans _ O); [exact B5|]. apply (ol_lt_le _ O). exact B3.
      + intros l1 y v l2 X LL.
        destruct (Nat.lt_ge_cases (length l1) (length (seen f (firstn m pos)))) as [Q|Q].
        * assert (Y : nth_error (seen f (firstn m pos) ++ St b :: es) (length l1) = Some (Ev y v)).
          { rewrite X, nth_error_app2, Nat.sub_diag by lia. reflexivity. }
          rewrite nth_error_app1 in Y by exact Q. unfold seen in Y, Q. rewrite map_length in Q. rewrite nth_error_map in Y.
          destruct (nth_error (firstn m pos) (length l1)) as [y'|] eqn:Z; [|discriminate]. cbn in Y. injection Y as -> <-.
          split; [reflexivity|].
          assert (LM : length l1 < m) by (rewrite firstn_length in Q; lia).
          assert (Z' : nth_error pos (length l1) = Some y).
          { rewrite <- Z. clear - LM. revert pos LM. generalize (length l1) as n. revert m. induction m as [|m IHm]; intros n pos LM; [lia|].
            destruct pos; [destruct n; reflexivity|]. destruct n; [reflexivity|]. cbn. apply IHm. lia. }
          assert (LM' : length l1 < m').
          { destruct HM as [[-> ->]|(HM1 & HM2 & ->)]; [exact LM|].
            apply (f_equal (@length _)) in X. rewrite !app_length in X. unfold seen in X. rewrite map_length, firstn_length in X. simpl in X. lia. }
          destruct HI as [HL HI].
          destruct (nth_error pb (length l1)) as [b0|] eqn:B0; [|apply nth_error_None in B0; apply nth_error_Some_bound in Z'; lia].
          specialize (HI _ _ _ Z' B0). destruct (IH1 _ _ HI) as (b3 & B4 & B5). exists b3. split; [eapply nth_error_In; eauto|].
          eapply (ol_le_trans _ O); [exact B5|]. destruct (Nat.ltb_spec (length l1) m'); [|lia]. cbn [andb].
          destruct (nlt (f y) (f b0)) eqn:K.
          -- apply (ol_total _ O); auto. apply (ol_irrefl _ O).
          -- apply (ol_total _ O); auto.
        * assert (SP : exists l0, l1 = seen f (firstn m pos) ++ l0 /\ l0 ++ Ev y v :: l2 = St b :: es).
          { clear - X Q. remember (seen f (firstn m pos)) as a eqn:A; clear A. revert l1 X Q. induction a as [|c a IHa]; intros l1 X Q; [exists l1; auto|].
            destruct l1 as [|d l1]; [simpl in Q; lia|]. injection X as -> X. destruct (IHa l1 X) as (l0 & -> & Y); [simpl in Q; lia|]. exists l0; auto. }
          destruct SP as ([|d l0] & -> & SP); [discriminate|]. injection SP as -> SP. exact (IH2 l0 y v l2 (eq_sym SP) LL).
  Qed.
  End NoNaN.
End PSO.
