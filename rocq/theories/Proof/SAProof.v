From Coq Require Import List Arith Bool Lia ZArith Reals.
From Verif.Base Require Import Num Vec Instances.
From Verif.Model Require Import Common SA.
From Verif.Spec Require Import CommonSpec SASpec.
Import ListNotations.

Lemma set_nth_length : forall {A} i (a : A) l, length (set_nth i a l) = length l.
Proof. intros A i a l. revert i. induction l as [|b l IH]; intros [|i]; simpl; auto. Qed.
Lemma set_nth_same : forall {A} i (a : A) l, i < length l -> nth_error (set_nth i a l) i = Some a.
Proof. intros A i a l. revert i. induction l as [|b l IH]; intros [|i] L; simpl in *; try lia; auto. apply IH. lia. Qed.
Lemma set_nth_other : forall {A} i j (a : A) l, j <> i -> nth_error (set_nth i a l) j = nth_error l j.
Proof. intros A i j a l. revert i j. induction l as [|b l IH]; intros [|i] [|j] L; simpl; try reflexivity; try lia. apply IH. lia. Qed.
Lemma set_nth_set : forall {A} i (a b : A) l, set_nth i b (set_nth i a l) = set_nth i b l.
Proof. intros A i a b l. revert i. induction l as [|c l IH]; intros [|i]; simpl; auto. f_equal. apply IH. Qed.
Lemma set_nth_id : forall {A} i (a : A) l, nth_error l i = Some a -> set_nth i a l = l.
Proof. intros A i a l. revert i. induction l as [|c l IH]; intros [|i] E; simpl in *; try discriminate; [congruence|]. f_equal. auto. Qed.

Section SA.
  Context {N : Num}.
  Notation vec := (list N).
  Notation ev := (ev N vec vec).
  Variables (maxIterations initMoves moveCtrlSweep maxToleranceSweep : nat).
  Variables (tolerance maxMoveCoef initMoveCoef gain target : N).
  Variable next : N -> N -> N.
  Variables (lg ex : N -> N).
  Variable f : vec -> N.
  Variable rnd : nat -> N * N.
  Variable cb : CB N vec vec.
  Variables (x0 : vec) (t0 : N).
  Variable O : OrdLaws N.
  Hypothesis NE : x0 <> [].
  Notation allowed := (size_ok initMoveCoef maxMoveCoef).
  Notation path := (sa_path f lg ex next rnd x0 t0 allowed).
  Notation gen := (generate_move moveCtrlSweep maxMoveCoef gain target lg ex f rnd cb).
  Notation n := (length x0).

  Lemma n_pos : 0 < n.
  Proof. destruct x0; [congruence|simpl; lia]. Qed.

  Record Inv (s : sst) : Prop := {
    iv_path : path (sa_tr s) (sa_x s) (sa_t s) (sa_j s);
    iv_e : sa_e s = f (sa_x s);
    iv_len : length (sa_x s) = n;
    iv_idx : sa_idx s = sa_j s mod n;
    iv_acc : length (sa_acc s) = n;
    iv_size : length (sa_size s) = n;
    iv_all : Forall allowed (sa_size s)
  }.

  Lemma move_control_ok : forall acc size, length acc = n -> length size = n ->
    length (move_control moveCtrlSweep maxMoveCoef gain target lg ex acc size) = n /\
    Forall allowed (move_control moveCtrlSweep maxMoveCoef gain target lg ex acc size).
  Proof.
    intros acc size LA LS. unfold move_control. split; [rewrite map2_length; lia|].
    clear LA LS. revert size. induction acc as [|a acc IH]; intros [|s size]; cbn [map2]; try constructor; auto.
    right. match goal with |- nlt maxMoveCoef (if nlt maxMoveCoef ?e then _ else _) = false => destruct (nlt maxMoveCoef e) eqn:Q; [|exact Q] end.
    apply (ol_irrefl N O).
  Qed.

  Lemma gen_ok : forall s, Inv s -> exists s' t, gen s = Some (s', t) /\ Inv s' /\
    sa_j s' = S (sa_j s) /\ (exists y, sa_tr s' = Ev y (f y) :: sa_tr s /\ t = cs_stop cb (sa_tr s')) /\ sa_t s' = sa_t s.
  Proof.
    intros s [P E L I A LS F]. unfold generate_move.
    pose proof n_pos as NP.
    assert (IL : sa_idx s < n) by (rewrite I; apply Nat.mod_upper_bound; lia).
    destruct (nth_error (sa_x s) (sa_idx s)) as [prev|] eqn:E1; [|apply nth_error_None in E1; lia].
    destruct (nth_error (sa_size s) (sa_idx s)) as [size|] eqn:E2; [|apply nth_error_None in E2; lia].
    destruct (nth_error (sa_acc s) (sa_idx s)) as [a|] eqn:E3; [|apply nth_error_None in E3; lia].
    destruct (rnd (sa_j s)) as [u xi] eqn:ER.
    set (d := laplace lg size u). set (y := set_nth (sa_idx s) (nadd prev d) (sa_x s)).
    set (keep := nle _ _ || nlt _ _).
    assert (AL : allowed size).
    { rewrite Forall_forall in F. apply F. eapply nth_error_In; eauto. }
    assert (LM : laplace_move lg size (fst (rnd (sa_j s))) d) by (rewrite ER; reflexivity).
    assert (MV : moved_at (sa_j s mod n) d (sa_x s) y).
    { rewrite <- I. split; [apply set_nth_length|]. split.
      - exists prev. split; [exact E1|]. apply set_nth_same. lia.
      - intros j J. apply set_nth_other; auto. }
    assert (BK : set_nth (sa_idx s) prev y = sa_x s).
    { unfold y. rewrite set_nth_set. apply set_nth_id. exact E1. }
    eexists _, _. split; [reflexivity|]. split.
    - split; cbn [sa_x sa_e sa_t sa_idx sa_acc sa_size sa_j sa_tr].
      + destruct keep eqn:K.
        * eapply sp_keep; eauto. rewrite ER. cbn [snd]. unfold accepts. rewrite <- E.
          apply orb_true_iff in K. exact K.
        * rewrite BK. eapply sp_reject; eauto. rewrite ER. cbn [snd]. unfold accepts. rewrite <- E.
          apply orb_false_iff in K as [K1 K2]. fold y. rewrite K1, K2. intros [|]; discriminate.
      + destruct keep; [reflexivity|]. rewrite BK. exact E.
      + destruct keep; [unfold y; rewrite set_nth_length; exact L|]. rewrite BK. exact L.
      + rewrite L. replace (S (sa_j s)) with (sa_j s + 1) by lia.
        destruct (Nat.eqb_spec (S (sa_idx s)) n) as [W|W].
        * rewrite <- Nat.add_mod_idemp_l by lia. rewrite <- I. replace (sa_idx s + 1) with n by lia.
          symmetry. apply Nat.mod_same. lia.
        * rewrite <- Nat.add_mod_idemp_l by lia. rewrite <- I. rewrite Nat.mod_small by lia. lia.
      + destruct (_ =? moveCtrlSweep); destruct keep; rewrite ?map_length, ?set_nth_length; exact A.
      + destruct (_ =? moveCtrlSweep); [|exact LS]. apply move_control_ok; [|exact LS].
        destruct keep; rewrite ?set_nth_length; exact A.
      + destruct (_ =? moveCtrlSweep); [|exact F]. apply move_control_ok; [|exact LS].
        destruct keep; rewrite ?set_nth_length; exact A.
    - split; [reflexivity|]. split; [|reflexivity]. exists y. split; reflexivity.
  Qed.

  Lemma asked_ext : forall (h h' : list ev), asked cb (rev h) -> asked cb (rev (h' ++ h)).
  Proof.
    intros h h' (h0 & e0 & rest & E & A). exists h0, e0, (rest ++ rev h'). split; [|exact A].
    rewrite rev_app_distr, E, <- app_assoc. reflexivity.
  Qed.
  Lemma asked_now : forall (h : list ev) e, asks e = true -> cs_stop cb (e :: h) = true -> asked cb (rev (e :: h)).
  Proof. intros h e A B. exists h, e, []. split; [reflexivity|]. split; auto. Qed.

  Lemma init_moves_ok : forall k s t, Inv s -> (t = true -> asked cb (rev (sa_tr s))) -> stepped (sa_tr s) = [] -> exists s' t',
    init_moves moveCtrlSweep maxMoveCoef gain target lg ex f rnd cb k s t = Some (s', t') /\ Inv s' /\
    sa_j s' <= sa_j s + k /\ (sa_j s' = sa_j s + k \/ asked cb (rev (sa_tr s'))) /\ sa_t s' = sa_t s /\
    stepped (sa_tr s') = [] /\ (t' = true -> asked cb (rev (sa_tr s'))).
  Proof.
    induction k as [|k IH]; intros s t I A C; cbn [init_moves].
    - exists s, t. repeat split; try lia; try apply I; auto.
    - destruct (gen_ok s I) as (s1 & t1 & -> & I1 & J & (y & TR & T1) & TT).
      assert (CO : stepped (sa_tr s1) = []) by (rewrite TR; exact C).
      assert (AK : t || t1 = true -> asked cb (rev (sa_tr s1))).
      { intros Q. apply orb_true_iff in Q as [Q|Q].
        - rewrite TR. apply (asked_ext (sa_tr s) [_]). auto.
        - rewrite TR in T1 |- *. apply asked_now; [reflexivity|congruence]. }
      destruct (t || t1) eqn:Q.
      + exists s1, true. split; [reflexivity|]. split; [exact I1|]. split; [lia|]. repeat split; auto.
      + destruct (IH s1 false I1) as (s' & t' & E & I' & J' & F' & T' & C' & A'); [discriminate|exact CO|].
        exists s', t'. split; [exact E|]. split; [exact I'|]. split; [lia|].
        split; [destruct F'; [left; lia|right; auto]|].
        split; [congruence|]. auto.
  Qed.

  Notation froze := (froze tolerance). Notation never := (never tolerance).

  Lemma cooling_ok : forall k s t fr es, Inv s -> (t = true -> asked cb (rev (sa_tr s))) ->
    hd_error es = Some (sa_e s) -> fr = quiet tolerance es ->
    let K := maxToleranceSweep * moveCtrlSweep * n in
    ~ froze K es -> never K es ->
    exists r T,
    cooling moveCtrlSweep maxToleranceSweep tolerance maxMoveCoef gain target next lg ex f rnd cb k s t fr = Some (r, T) /\
    exists h2 j, let h := h2 ++ sa_tr s in
      let E := map f (stepped h2) ++ es in
      o_tr r = rev (End (o_x r) :: h) /\ path h (o_x r) T j /\ o_val r = f (o_x r) /\
      length (stepped h2) <= k /\ sa_j s + length (stepped h2) <= j <= sa_j s + length (stepped h2) + 1 /\
      never K E /\
      (length (stepped h2) = k /\ j = sa_j s + k \/ asked cb (o_tr r) \/ froze K E).
  Proof.
    intros k s t fr es. revert s t fr es. induction k as [|k IH]; intros s t fr es I A HE HF K NF NV.
    - exists (sa_done s), (sa_t s). split; [destruct t; reflexivity|]. exists [], (sa_j s).
      split; [reflexivity|]. split; [apply I|]. split; [apply I|]. split; [simpl; lia|]. split; [simpl; lia|].
      split; [exact NV|]. left. simpl; lia.
    - cbn [cooling]. destruct t.
      + exists (sa_done s), (sa_t s). split; [reflexivity|]. exists [], (sa_j s).
        split; [reflexivity|]. split; [apply I|]. split; [apply I|]. split; [simpl; lia|]. split; [simpl; lia|].
        split; [exact NV|]. right; left. apply (asked_ext (sa_tr s) [End (sa_x s)]). auto.
      + destruct (gen_ok s I) as (s1 & t1 & -> & I1 & J & (y & TR & T1) & TT).
        destruct t1.
        * exists (sa_done s1), (sa_t s1). split; [reflexivity|]. exists [Ev y (f y)], (sa_j s1).
          cbn [app]. rewrite <- TR.
          split; [reflexivity|]. split; [apply I1|]. split; [apply I1|]. split; [simpl; lia|]. split; [simpl; lia|].
          split; [exact NV|]. right; left.
          apply (asked_ext (sa_tr s1) [End (sa_x s1)]). rewrite TR in T1 |- *. apply asked_now; auto.
        * set (s2 := {| sa_x := sa_x s1; sa_e := sa_e s1; sa_t := next (sa_t s1) (sa_e s1); sa_idx := sa_idx s1;
                        sa_sweep := sa_sweep s1; sa_acc := sa_acc s1; sa_size := sa_size s1; sa_j := sa_j s1;
                        sa_tr := St (sa_x s1) :: sa_tr s1 |}).
          set (fr' := if nlt _ tolerance then S fr else 0).
          assert (I2 : Inv s2).
          { destruct I1 as [P E L X AA S F]. split; cbn [s2 sa_x sa_e sa_t sa_idx sa_acc sa_size sa_j sa_tr]; auto.
            rewrite E. rewrite TR in P |- *. apply sp_step. exact P. }
          destruct es as [|e0 es']; [discriminate|]. injection HE as HE.
          set (es2 := f (sa_x s1) :: e0 :: es').
          assert (FR : fr' = quiet tolerance es2).
          { unfold fr', es2. cbn [quiet]. rewrite HE, <- (iv_e _ I1). destruct (nlt _ _); [|reflexivity].
            rewrite HF, HE. reflexivity. }
          assert (NV2 : never K es2).
          { intros [|a0 a] b EQ NA; [congruence|]. injection EQ as _ EQ. destruct a as [|a1 a].
            - cbn in EQ. rewrite <- EQ. exact NF.
            - apply (NV (a1 :: a)); [exact EQ|discriminate]. }
          rewrite (iv_len s1 I1). fold K.
          destruct (Nat.leb_spec K fr') as [Q|Q].
          -- exists (sa_done s2), (next (sa_t s1) (sa_e s1)). split; [reflexivity|].
             exists [St (sa_x s1); Ev y (f y)], (sa_j s2).
             cbn [app]. rewrite <- TR. change (St (sa_x s1) :: sa_tr s1) with (sa_tr s2).
             split; [reflexivity|]. split; [apply I2|]. split; [apply I2|]. split; [simpl; lia|].
             split; [cbn; lia|]. split; [exact NV2|]. right; right. split; [cbn; lia|]. rewrite FR in Q. exact Q.
          -- destruct (IH s2 (cs_stop cb (sa_tr s2)) fr' es2 I2) as (r & T & E & h & j & R1 & R2 & R3 & R4 & R5 & R6 & R7).
             ++ intros Q2. apply asked_now; auto.
             ++ unfold es2. cbn [hd_error s2 sa_e]. rewrite (iv_e _ I1). reflexivity.
             ++ exact FR.
             ++ intros [_ F2]. rewrite <- FR in F2. fold K in F2. lia.
             ++ exact NV2.
             ++ exists r, T. split; [exact E|]. exists (h ++ [St (sa_x s1); Ev y (f y)]), j.
                assert (HH : (h ++ [St (sa_x s1); Ev y (f y)]) ++ sa_tr s = h ++ sa_tr s2).
                { rewrite <- app_assoc. cbn [app s2 sa_tr]. rewrite TR. reflexivity. }
                assert (SS : stepped (h ++ [St (sa_x s1); Ev y (f y)]) = stepped h ++ [sa_x s1]).
                { unfold stepped. rewrite flat_map_app. reflexivity. }
                cbn zeta. rewrite HH, SS. rewrite map_app, <- app_assoc, app_length. cbn [map app length].
                cbn [s2 sa_j] in R5, R7. fold es2.
                split; [exact R1|]. split; [exact R2|]. split; [exact R3|]. split; [lia|]. split; [lia|]. split; [exact R6|].
                destruct R7 as [[R7 R8]|[R7|R7]]; [left|right; left|right; right]; auto. lia.
  Qed.

  Theorem sa_ok :
    exists r T,
    sa_optimize maxIterations initMoves moveCtrlSweep maxToleranceSweep tolerance maxMoveCoef initMoveCoef gain target
      next lg ex f rnd cb t0 x0 = Ret (r, T) /\
    exists h1 x1 j1 h2 j, let h := h2 ++ h1 in
      let E := map f (stepped h2) ++ [f x1] in
      let K := maxToleranceSweep * moveCtrlSweep * n in
      path h1 x1 t0 j1 /\ stepped h1 = [] /\ j1 <= initMoves /\ (j1 = initMoves \/ asked cb (rev h1)) /\
      o_tr r = rev h ++ [End (o_x r)] /\ path h (o_x r) T j /\ o_val r = f (o_x r) /\
      length (stepped h2) <= maxIterations /\ j1 + length (stepped h2) <= j <= j1 + length (stepped h2) + 1 /\
      never K E /\
      (length (stepped h2) = maxIterations /\ j = j1 + maxIterations \/ asked cb (o_tr r) \/ froze K E).
  Proof.
    unfold sa_optimize. set (s := Build_sst _ _ _ _ _ _ _ _ _).
    assert (I : Inv s).
    { split; cbn [s sa_x sa_e sa_t sa_idx sa_acc sa_size sa_j sa_tr]; rewrite ?map_length; auto.
      - apply sp_start.
      - symmetry. apply Nat.mod_0_l. pose proof n_pos. lia.
      - apply Forall_forall. intros z Z. apply in_map_iff in Z as (? & <- & _). left. reflexivity. }
    destruct (init_moves_ok initMoves s (cs_stop cb [Ev x0 (f x0)]) I) as (s1 & t1 & -> & I1 & J1 & A1 & T1 & S1 & B1); [|reflexivity|].
    { intros Q. apply (asked_ext [Ev x0 (f x0)] [Begin x0]). apply asked_now; auto. }
    destruct (cooling_ok maxIterations s1 t1 0 [sa_e s1] I1 B1) as (r & T & -> & h2 & j & R1 & R2 & R3 & R4 & R5 & R6 & R7); try reflexivity.
    { intros [Q _]. simpl in Q. lia. }
    { intros [|a0 a] b EQ NA; [congruence|]. intros [Q _]. apply (f_equal (@length N)) in EQ. cbn in EQ. rewrite app_length in EQ. lia. }
    exists r, T. split; [reflexivity|]. exists (sa_tr s1), (sa_x s1), (sa_j s1), h2, j. cbn zeta.
    rewrite <- (iv_e _ I1).
    split; [pose proof (iv_path _ I1) as PP; rewrite T1 in PP; exact PP|]. cbn [s sa_j] in J1, A1.
    repeat split; auto; lia.
  Qed.
End SA.
