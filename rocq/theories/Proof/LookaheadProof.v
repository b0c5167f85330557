(** Lookahead: rounds, limit, convergence and stop requests. *)
From Coq Require Import List Arith Bool Lia.
From Verif.Base Require Import Num Vec Size Loop.
From Verif.Proof Require Import SgdProof SgdMore.
From Verif.Model Require Import Common Sgd Lookahead.
From Verif.Spec Require Import SgdSpec LookaheadSpec.
Import ListNotations.

Lemma last_step : forall {A} (l : list A) a d, last (a :: l) d = last l a.
Proof. intros A l; induction l as [|b l IH]; intros a d; [reflexivity|]. change (last (b :: l) d = last (b :: l) a). rewrite !IH. reflexivity. Qed.

Section P.
  Context {N : Num} {B D E : Type}.
  Notation vec := (list N).
  Variable base : nat -> B -> list (lev N E) -> vec -> option (B * vec * N * list E).
  Variables (has_max : bool) (base_max k maxIterations : nat) (tolerance : N) (exactObjective : bool).
  Variable dp : D -> vec -> N -> vec -> D * N.
  Variable numFunctions batchSize : nat.
  Variable feval : list (lev N E) -> vec -> nat -> nat -> N.
  Variable stop : list (lev N E) -> bool.
  Notation body := (lbody base has_max base_max k maxIterations tolerance dp stop).
  Notation lim := (lmax maxIterations).
  Notation imax := (inner_max has_max base_max k).

  Notation runs_base := (runs_base base has_max base_max k).
  Notation stops_there := (stops_there stop).
  Notation asked_last := (asked_last stop).
  Notation evaluated_at := (evaluated_at numFunctions batchSize feval).
  Notation report := (lookahead_report base has_max base_max k maxIterations tolerance exactObjective dp numFunctions batchSize feval stop).

  Lemma rounds_ok : forall fuel s ex, loop body fuel s = inr ex -> ex <> LHang ->
    exists (conv : bool) s' new inners, ex = (if conv then LConv s' else LDone s') /\
      length inners = length new /\ l_log s' = rev new ++ l_log s /\
      l_tr s' = rev (shown conv inners new) ++ l_tr s /\
      follow tolerance dp conv (l_x s) (l_d s) (l_step s) (l_last s) new (l_x s') /\
      l_i s + length new <= Nat.max lim (l_i s) /\
      l_over s' = last (map rd_obj new) (l_over s) /\
      (l_d s', l_step s') = last (map (fun r => (rd_d r, rd_step r)) new) (l_d s, l_step s) /\
      runs_base (l_tr s) (shown conv inners new) /\
      (l_term s = true -> new = []) /\ stops_there (l_tr s) (shown conv inners new) /\
      (conv = false -> l_i s + length new < lim -> l_term s = true \/ asked_last (l_tr s) (shown conv inners new)).
  Proof.
    intros fuel; induction fuel as [|fuel IH]; intros s ex H NH; cbn [loop] in H; [discriminate|].
    unfold lbody in H. destruct (Nat.ltb_spec (l_i s) lim) as [LI|LI]; cbn [andb negb] in H.
    2:{ injection H as <-. exists false, s, [], []. cbn [shown rev app length map last follow].
        repeat split; try reflexivity; try lia; try (intros; discriminate).
        - intros pre slow fast obj inner post C. destruct pre; discriminate.
        - intros pre y post C. destruct pre; discriminate. }
    destruct (l_term s) eqn:TS; cbn [negb] in H.
    { injection H as <-. exists false, s, [], []. cbn [shown rev app length map last follow].
      repeat split; try reflexivity; try lia; try (intros; discriminate).
      - intros pre slow fast obj inner post C. destruct pre; discriminate.
      - intros pre y post C. destruct pre; discriminate. }
    destruct (base imax (l_b s) (l_tr s) (l_x s)) as [[[[b fast] obj] inner]|] eqn:EB; [|injection H as <-; congruence].
    destruct (dp (l_d s) (l_x s) (l_step s) fast) as [d step] eqn:ED.
    set (r := {| rd_slow := l_x s; rd_fast := fast; rd_obj := obj; rd_step := step; rd_d := d |}) in *.
    destruct (nisnan obj || nisinf obj || nlt (nabs (nsub (l_last s) obj)) tolerance) eqn:EC.
    - injection H as <-. eexists true, _, [r], [inner]. split; [reflexivity|].
      cbn [shown rev app length map last follow l_log l_tr l_x l_i l_over l_d l_step rd_slow rd_fast rd_obj rd_step rd_d r].
      repeat split; try reflexivity; try lia; try (intros; discriminate).
      + symmetry. exact ED.
      + exact EC.
      + intros pre slow fast' obj' inner' post C. destruct pre as [|e pre]; [|destruct pre; discriminate].
        cbn in C. injection C as <- <- <- <- _. cbn. eauto.
      + intros pre y post C. destruct pre as [|e pre]; [discriminate|destruct pre; discriminate].
    - destruct (IH _ _ H NH) as (conv & s' & new & inners & -> & L & LG & TR & FO & LI2 & OV & DD & RB & TM & ST & AS).
      cbn [l_log l_tr l_x l_i l_over l_d l_step l_last l_term] in *.
      exists conv, s', (r :: new), (inner :: inners).
      assert (SH : shown conv (inner :: inners) (r :: new) = LRun (l_x s) fast obj inner :: LStep (moves_to r) :: shown conv inners new).
      { cbn [shown]. destruct new as [|r2 new]; [|reflexivity]. destruct FO as [-> _]. reflexivity. }
      rewrite SH. split; [reflexivity|]. split; [cbn; lia|]. split; [rewrite LG; cbn [rev]; rewrite <- app_assoc; reflexivity|].
      split. { rewrite TR. cbn [rev]. rewrite <- !app_assoc. reflexivity. }
      split. { cbn [follow]. split; [reflexivity|]. split; [symmetry; exact ED|].
        destruct new as [|r2 new]; [destruct FO as [-> FX]; split; [exact EC|exact FX]|split; [exact EC|exact FO]]. }
      split; [cbn [length]; lia|].
      split. { rewrite OV. cbn [map]. rewrite last_step. reflexivity. }
      split. { rewrite DD. cbn [map]. rewrite last_step. reflexivity. }
      split. { intros pre slow fast' obj' inner' post C. destruct pre as [|e1 pre]; [cbn in C; injection C as <- <- <- <- _; cbn; eauto|].
        destruct pre as [|e2 pre]; [discriminate|]. cbn in C. injection C as <- <- C. cbn [rev]. rewrite <- !app_assoc. eapply RB. exact C. }
      split; [intros; congruence|]. split.
      + intros pre y post C SE. destruct pre as [|e1 pre]; [discriminate|]. destruct pre as [|e2 pre].
        * cbn in C. injection C as <- <- <-. 
          assert (X : new = []) by (apply TM; exact SE). subst new. destruct inners; reflexivity.
        * cbn in C. injection C as <- <- C. cbn [rev] in SE. rewrite <- !app_assoc in SE. cbn [app] in SE. eapply ST; [exact C|exact SE].
      + intros EF LT. right. cbn [length] in LT. destruct (AS EF ltac:(lia)) as [AT|(pre & y & EP & SE)].
        * exists [LRun (l_x s) fast obj inner], (moves_to r). assert (new = []) by (apply TM; exact AT). subst new.
          split; [destruct inners; reflexivity|]. exact AT.
        * exists (LRun (l_x s) fast obj inner :: LStep (moves_to r) :: pre), y. split; [rewrite EP; reflexivity|].
          cbn [rev]. rewrite <- !app_assoc. exact SE.
  Qed.

  (** ** The final evaluation *)
  Lemma lexact_ok : forall fuel x i acc tr v tr', lexact numFunctions batchSize feval fuel x i acc tr = Some (v, tr') ->
    exists evs, tr' = rev evs ++ tr /\ v = fold_left nadd (map obj_of evs) acc /\
      numFunctions <= i + length evs * batchSize /\ (evs = [] \/ i + (length evs - 1) * batchSize < numFunctions) /\
      (forall pre e post, evs = pre ++ e :: post ->
         let b := i + length pre * batchSize in let n := Nat.min batchSize (numFunctions - b) in
         e = LEval x b n (feval (rev pre ++ tr) x b n)).
  Proof.
    intros fuel; induction fuel as [|fuel IH]; intros x i acc tr v tr' H; cbn [lexact] in H;
      destruct (Nat.ltb_spec i numFunctions) as [L|L]; try discriminate.
    - injection H as <- <-. exists []. repeat split; try reflexivity; [lia|left; reflexivity|]. intros [|? pre] e post C; discriminate.
    - apply IH in H as (evs & -> & -> & H1 & H2 & H3).
      set (e0 := LEval x i _ _) in *. exists (e0 :: evs). cbn [rev map fold_left length obj_of]. rewrite <- app_assoc.
      split; [reflexivity|]. split; [reflexivity|]. split; [lia|]. split.
      + right. destruct H2 as [->|H2]; [cbn; lia|]. replace (S (length evs) - 1) with (length evs) by lia.
        destruct evs as [|e evs]; [cbn; lia|]. cbn [length] in *. replace (S (length evs) - 1) with (length evs) in H2 by lia. lia.
      + intros pre e post C. destruct pre as [|e1 pre]; cbn in C; injection C as <- C.
        * cbn [length Nat.mul rev app]. rewrite Nat.add_0_r. reflexivity.
        * cbn [length rev]. rewrite <- app_assoc. cbn [app]. pose proof (H3 pre e post C) as X. cbv zeta in X |- *.
          replace (i + S (length pre) * batchSize) with (i + batchSize + length pre * batchSize) by lia. exact X.
    - injection H as <- <-. exists []. repeat split; try reflexivity; [lia|left; reflexivity|]. intros [|? pre] e post C; discriminate.
  Qed.
  Lemma lexact_batches : forall fuel x tr v tr', 0 < batchSize -> lexact numFunctions batchSize feval fuel x 0 n0 tr = Some (v, tr') ->
    exists evs, tr' = rev evs ++ tr /\ v = fold_left nadd (map obj_of evs) n0 /\
      length evs = length (full_batches numFunctions batchSize) /\ evaluated_at x tr evs.
  Proof.
    intros fuel x tr v tr' HB H. apply lexact_ok in H as (evs & H1 & H2 & H3 & H4 & H5). exists evs.
    assert (L : length evs = (numFunctions + batchSize - 1) / batchSize).
    { cbn [Nat.add] in *. destruct evs as [|e evs]; [cbn in *; rewrite (Nat.div_small); lia|].
      destruct H4 as [H4|H4]; [discriminate|]. cbn [length] in *. replace (S (length evs) - 1) with (length evs) in H4 by lia.
      apply (Nat.div_unique _ _ _ (numFunctions + batchSize - 1 - S (length evs) * batchSize)); lia. }
    split; [exact H1|]. split; [exact H2|]. unfold full_batches. rewrite map_length, seq_length. split; [exact L|].
    intros pre e post C. exists (length pre * batchSize). split; [|exact (H5 pre e post C)].
    assert (length pre < length evs) by (rewrite C, app_length; cbn; lia).
    unfold full_batches. rewrite nth_error_map, (nth_error_nth' _ 0) by (rewrite seq_length; lia). rewrite seq_nth by lia. reflexivity.
  Qed.
  Lemma lexact_total : forall fuel x i acc tr, 0 < batchSize -> numFunctions <= fuel + i ->
    exists v tr', lexact numFunctions batchSize feval fuel x i acc tr = Some (v, tr').
  Proof.
    intros fuel; induction fuel as [|fuel IH]; intros x i acc tr HB L; cbn [lexact]; destruct (Nat.ltb_spec i numFunctions);
      try lia; try (do 2 eexists; reflexivity). apply IH; lia.
  Qed.

  Lemma lookahead_ok : forall fuel b d step x r,
    lookahead base has_max base_max k maxIterations tolerance exactObjective dp numFunctions batchSize feval stop fuel b d step x = Ret r ->
    report x d step r.
  Proof.
    intros fuel b d step x r H. unfold lookahead in H.
    match type of H with context [loop _ fuel ?s] => set (s0 := s) in * end.
    destruct (loop body fuel s0) as [|ex] eqn:EL; [discriminate|].
    assert (NH : ex <> LHang) by (intros ->; discriminate).
    destruct (rounds_ok fuel s0 ex EL NH) as (conv & s' & new & inners & -> & L & LG & TR & FO & LI & OV & _ & RB & _ & ST & AS).
    cbn [l_log l_tr l_x l_d l_step l_last l_i l_over l_term s0] in *. rewrite app_nil_r in LG.
    assert (AS' : conv = false -> length new < lim -> asked_last [LBegin x] (shown conv inners new)).
    { intros A C. destruct (AS A C) as [F|F]; [discriminate|exact F]. }
    assert (LIM : length new <= lim) by (cbn [Nat.add] in LI; lia).
    destruct conv.
    - injection H as <-. exists inners, []. unfold lfinish. cbn [lr_log lr_conv lr_x lr_tr lr_val].
      rewrite LG, rev_involutive, TR. cbn [rev]. rewrite rev_app_distr, rev_involutive. cbn [rev app].
      rewrite andb_false_r. repeat split; auto.
    - destruct exactObjective eqn:EE.
      + destruct (lexact numFunctions batchSize feval fuel (l_x s') 0 n0 (l_tr s')) as [[v tr]|] eqn:EX; [|discriminate].
        injection H as <-. pose proof EX as EX2. apply lexact_ok in EX as (evs & -> & EV & _ & _ & EE5).
        exists inners, evs. unfold lfinish. cbn [lr_log lr_conv lr_x lr_tr lr_val].
        rewrite LG, rev_involutive. cbn [rev]. rewrite rev_app_distr, rev_involutive, TR, rev_app_distr, rev_involutive. cbn [rev app].
        cbn [andb negb]. split; [exact L|]. split; [exact FO|]. split; [exact LIM|].
        split; [rewrite <- app_assoc; reflexivity|].
        split. { intros e I. apply in_split in I as (pre & post & EQ). pose proof (EE5 pre e post EQ) as X. cbv zeta in X. rewrite X. reflexivity. }
        split; [exact RB|]. split; [exact ST|]. split; [exact AS'|]. split; [exact EV|].
        intros HB. destruct (lexact_batches _ _ _ _ _ HB EX2) as (evs2 & E2 & _ & L2 & A2).
        assert (evs2 = evs). { apply app_inv_tail in E2. rewrite <- (rev_involutive evs2), <- E2. apply rev_involutive. }
        subst evs2. split; [exact L2|]. rewrite <- TR. exact A2.
      + injection H as <-. exists inners, []. unfold lfinish. cbn [lr_log lr_conv lr_x lr_tr lr_val].
        rewrite LG, rev_involutive, TR. cbn [rev]. rewrite rev_app_distr, rev_involutive. cbn [rev app andb].
        repeat split; auto.
  Qed.

  (** the call returns if the inner runs do *)
  Lemma lookahead_returns : forall fuel b d step x, (forall b h y, base imax b h y <> None) -> 0 < batchSize ->
    lim < fuel -> numFunctions <= fuel ->
    exists r, lookahead base has_max base_max k maxIterations tolerance exactObjective dp numFunctions batchSize feval stop fuel b d step x = Ret r.
  Proof.
    intros fuel b d step x HB HS LF LN. unfold lookahead.
    assert (X : forall fuel s, l_i s <= lim -> lim < fuel + l_i s -> exists ex, loop body fuel s = inr ex /\ ex <> LHang).
    { clear fuel LF LN x step d b. intros fuel; induction fuel as [|fuel IH]; intros s LS L; cbn [loop]; [lia|]. unfold lbody.
      destruct (Nat.ltb_spec (l_i s) lim) as [LI|LI]; cbn [andb negb]; [|eexists; split; [reflexivity|discriminate]].
      destruct (l_term s); cbn [negb]; [eexists; split; [reflexivity|discriminate]|].
      destruct (base imax (l_b s) (l_tr s) (l_x s)) as [[[[b fast] obj] inner]|] eqn:EB; [|exfalso; eapply HB; eauto].
      destruct (dp _ _ _ _) as [d step]. destruct (_ || _); [eexists; split; [reflexivity|discriminate]|].
      apply IH; cbn [l_i]; lia. }
    match goal with |- context [loop _ fuel ?s] => destruct (X fuel s) as (ex & -> & NH); [cbn; lia|cbn [l_i]; lia|] end.
    destruct ex as [s|s|]; [|eexists; reflexivity|congruence].
    destruct exactObjective; [|eexists; reflexivity].
    destruct (lexact_total fuel (l_x s) 0 n0 (l_tr s) HS) as (v & tr & ->); [lia|]. eexists; reflexivity.
  Qed.
End P.

(** With SGD as base optimizer every inner run visits at most k functions. *)
Lemma sgd_inner_limit : forall (N : Num) (G U D : Type) (c : nat -> Cfg N (list N) G U D) f cb fuel k b h x b' fast obj inner,
  (forall m, c_max (c m) = m) -> 0 < k -> 0 < sf_num (f h) -> 0 < c_batch (c k) ->
  sgd_base c f cb fuel k b h x = Some (b', fast, obj, inner) -> visits inner <= k.
Proof.
  intros N G U D c f cb fuel k [[u d] step] h x b' fast obj inner HC HK HF HB H. unfold sgd_base in H.
  destruct (optimize_with (c k) (f h) (cb h) fuel u d step x) as [r| |] eqn:EO; try discriminate.
  injection H as _ _ _ <-. assert (L : visits (r_trace r) <= limit (c_max (c k))) by (eapply c02_bound; eassumption). rewrite HC in L.
  destruct k; [lia|exact L].
Qed.
