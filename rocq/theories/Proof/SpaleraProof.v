(** SPALeRA SGD (Model/Spalera.v): the report of a call. *)
From Coq Require Import List Arith Bool Lia ZArith.
From Verif.Base Require Import Num Vec Size Loop.
From Verif.Model Require Import Common VarRed Spalera.
From Verif.Spec Require Import SgdSpec VarRedSpec SpaleraSpec.
From Verif.Proof Require Import VarRedProof SVRGProof.
Import ListNotations.
Local Open Scope nat_scope.

Section P.
  Context {N : Num} {D : Type}.
  Variables (npow : N -> nat -> N) (nexp : N -> N) (tiny alpha epsilon rate : N).
  Variable f : VFun N.
  Variable cb : PCB N.
  Variables (b maxIterations : nat) (tol lambda : N) (shuffle exact : bool).
  Variable decay : D -> list N -> N -> list N -> D * N.
  Hypothesis Hn : 0 < vf_num f.
  Hypothesis Hb : 0 < b.
  Notation n := (vf_num f).
  Notation trace := (list (pev N)).
  Notation lim := (pmax maxIterations).

  (** ---- histories, newest event first ---- *)
  Definition pokev (h : trace) (e : pev N) : Prop :=
    match e with
    | PEval x i c v => v = vf_eval f (pshuffles h) x i c
    | PBoth x i c v g g' => v = vf_eval f (pshuffles h) x i c /\ g = vf_grad f (pshuffles h) x i c /\ g' = pc_hook cb h x g
    | _ => True
    end.
  Fixpoint paskb (tr : trace) : bool :=
    match tr with [] => false | e :: h => (pasks e && pc_stop cb (e :: h)) || paskb h end.
  Definition is_pstep (e : pev N) : bool := match e with PStep _ _ => true | _ => false end.
  Fixpoint PInv (tr : trace) : Prop :=
    match tr with
    | [] => True
    | e :: h => pokev h e /\ pin_range n b e /\ (is_pstep e = true -> paskb h = false) /\ PInv h
    end.
  Lemma pshuffles_rev (tr : trace) : pshuffles (rev tr) = pshuffles tr.
  Proof. clear npow nexp tiny alpha epsilon rate maxIterations tol lambda shuffle exact decay Hn Hb.
    unfold pshuffles. induction tr as [|e tr IH]; [reflexivity|]. cbn [rev]. rewrite filter_app, app_length, IH.
    cbn [filter]. destruct e; cbn [length]; lia.
  Qed.
  Lemma PInv_at (a h : trace) e : PInv (a ++ e :: h) -> pokev h e /\ pin_range n b e /\ (is_pstep e = true -> paskb h = false).
  Proof. clear npow nexp tiny alpha epsilon rate maxIterations tol lambda shuffle exact decay Hn Hb. induction a as [|e' a IH]; cbn; tauto. Qed.
  Lemma paskb_spec (h : trace) : paskb h = true <-> pasked cb (rev h).
  Proof. clear - h cb.
    split.
    - induction h as [|e h IH]; cbn; [discriminate|]. intros [H|H]%orb_prop.
      + apply andb_prop in H. exists (rev h), e, []. rewrite rev_involutive. tauto.
      + destruct (IH H) as (a & e' & r & E & A & B). exists a, e', (r ++ [e]). rewrite E, <- app_assoc. auto.
    - intros (a & e & r & E & A & B). apply (f_equal (@rev _)) in E. rewrite rev_involutive, rev_app_distr in E.
      cbn [rev] in E. rewrite <- app_assoc in E. cbn in E. subst h.
      induction (rev r) as [|e' l IH]; cbn; [rewrite A, B; reflexivity|]. rewrite IH, orb_true_r. reflexivity.
  Qed.
  Lemma PInv_final (tr : trace) : PInv tr -> Forall (pin_range n b) (rev tr) /\ pcomputed f cb (rev tr) /\ phonoured cb (rev tr).
  Proof. clear npow nexp tiny alpha epsilon rate maxIterations tol lambda shuffle exact decay Hn Hb.
    intros H. repeat apply conj.
    - apply Forall_rev. revert H. induction tr as [|e tr IH]; constructor; cbn in H; [tauto|apply IH; tauto].
    - intros h e rest E. apply (f_equal (@rev _)) in E. rewrite rev_involutive, rev_app_distr in E.
      cbn [rev] in E. rewrite <- app_assoc in E. cbn in E. subst tr. apply PInv_at in H. destruct H as (H & _).
      unfold pokev in H. rewrite pshuffles_rev in H. exact H.
    - intros h x eta rest E. apply (f_equal (@rev _)) in E. rewrite rev_involutive, rev_app_distr in E.
      cbn [rev] in E. rewrite <- app_assoc in E. cbn in E. subst tr. apply PInv_at in H. destruct H as (_ & _ & H).
      specialize (H eq_refl). intros A. rewrite <- (rev_involutive h) in A. apply paskb_spec in A. congruence.
  Qed.

  Lemma pass_ok fuel : forall x i acc term tr acc' term' tr',
    pass f cb b fuel x i acc term tr = Some (acc', term', tr') ->
    exists l, tr' = rev (pevs x l) ++ tr /\ slice f b (map fst l) i /\ acc' = fold_left nadd (map snd l) acc /\
      (PInv tr -> PInv tr') /\ (term = paskb tr -> term' = paskb tr').
  Proof.
    induction fuel as [|fuel IH]; intros x i acc term tr acc' term' tr'; cbn [pass];
      (destruct (Nat.ltb_spec i n) as [L|L]; [|intros [= <- <- <-]; exists []; cbn; auto using slice_nil]); [discriminate|].
    intros H. apply IH in H. destruct H as (l & E & S & V & I & T).
    set (c := Nat.min b (n - i)) in *. set (v := vf_eval f (pshuffles tr) x i c) in *.
    exists (((i, c), v) :: l). cbn [pevs map fst snd rev fold_left].
    fold (pevs x l). rewrite <- app_assoc. cbn [app]. refine (conj E (conj _ (conj V (conj _ _)))).
    - eapply (slice_cons f b Hb); [exact L| |exact S]. auto.
    - intros A. apply I. cbn. repeat split; auto; try discriminate; unfold c; lia.
    - intros ->. apply T. cbn. apply orb_comm.
  Qed.
  Lemma slice_split l : slice f b l 0 -> split_of n b l.
  Proof. intros (A & B). rewrite Nat.sub_0_r in A. split; assumption. Qed.

  (** ---- the main loop ---- *)
  Variables (lam : N) (first : list (@oeval N)) (pol0 : pst N) (eta0 : N) (d0 : D) (x0 : list N).
  Hypothesis Hfirst : split_of n b (map fst first).
  Notation upd := (fun eta v c x g pol => update npow nexp tiny alpha epsilon rate lam eta v c n x g pol).
  Notation start := (pstart (total first) pol0 eta0 d0 x0).
  Notation prun := (prun upd decay n b lim tol).
  Notation events := (prun_events n b lim shuffle).
  Notation pstep_ok := (pstep_ok upd decay n b lim).

  Lemma prun_snoc l : forall s s1 t s2, prun s l s1 -> pstep_ok s1 t s2 -> (pends n b lim s1 = true -> pconverged tol s1 t = false) ->
    prun s (l ++ [(t, s2)]) s2.
  Proof.
    induction l as [|[t' m] l IH]; intros s s1 t s2 R St Cv; cbn [app SpaleraSpec.prun] in *; [subst s1; auto|].
    destruct R as (A & B & C). split; [exact A|split; [exact B|]]. eapply IH; eassumption.
  Qed.
  Lemma pevents_snoc l : forall s s1 t s2, prun s l s1 ->
    events s (l ++ [(t, s2)]) = events s l ++ pmove_events n b lim s1 t s2 ++ pepoch_events n b lim shuffle s1 t s2.
  Proof.
    induction l as [|[t' m] l IH]; intros s s1 t s2 R; cbn [app SpaleraSpec.prun prun_events] in *.
    - subst s1. rewrite app_nil_r. reflexivity.
    - destruct R as (A & B & C). rewrite (IH _ _ _ _ C), <- !app_assoc. reflexivity.
  Qed.

  Definition psame (s : @lst N D) (p : ppos) : Prop :=
    l_x s = q_x p /\ l_pol s = q_pol p /\ l_eta s = q_eta p /\ l_d s = q_d p /\ l_i s = q_i p /\ l_cf s = q_f p /\
    l_ep s = q_k p /\ l_over s = q_over p /\ l_last s = q_last p.
  Definition ppre : trace := PBegin x0 :: pevs x0 first ++ [PBeginEpoch 1 (total first)].
  Definition PP (s : @lst N D) : Prop :=
    exists l p, prun start l p /\ psame s p /\ l_tr s = rev (ppre ++ events start l) /\ (l_i s < lim -> l_cf s < n) /\
      PInv (l_tr s) /\ l_term s = paskb (l_tr s).
  Definition PQ (e : @lexit N D) : Prop :=
    match e with
    | LBad => True
    | LConv s => exists l p t p', prun start l p /\ pstep_ok p t p' /\ pends n b lim p = true /\ pconverged tol p t = true /\
        l_tr s = rev (ppre ++ events start l ++ pmove_events n b lim p t p' ++ [PEndEpoch (q_k p) (ndiv (w_over p t) (nofnat n))]) /\
        l_over s = w_over p t /\ PInv (l_tr s) /\
        l_x s = q_x p' /\ l_pol s = q_pol p' /\ l_eta s = q_eta p' /\ l_d s = q_d p'
    | LFail s => exists l p t, prun start l p /\ q_f p < n /\ q_i p < lim /\ 0 < w_c n b lim p /\
        upd (q_eta p) (w_val t) (w_c n b lim p) (q_x p) (w_g' t) (q_pol p) = Some (l_x s, false, l_pol s) /\
        l_tr s = rev (ppre ++ events start l ++ [PBoth (q_x p) (q_f p) (w_c n b lim p) (w_val t) (w_g t) (w_g' t)]) /\
        l_over s = q_over p /\ PInv (l_tr s) /\ l_eta s = q_eta p /\ l_d s = q_d p
    | LDone s => exists l p rest, prun start l p /\ l_tr s = rev (ppre ++ events start l ++ rest) /\
        (rest = [] \/ exists v g g', rest = [PBoth (q_x p) (q_f p) (w_c n b lim p) v g g']) /\
        l_x s = q_x p /\ l_pol s = q_pol p /\ l_eta s = q_eta p /\ l_d s = q_d p /\ l_over s = q_over p /\
        (paskb (l_tr s) = true \/ rest = [] /\ lim <= q_i p) /\ PInv (l_tr s)
    end.

  Lemma pbody_ok s : PP s -> match pbody npow nexp tiny alpha epsilon rate f cb b maxIterations tol shuffle decay lam s with inl s' => PP s' | inr e => PQ e end.
  Proof.
    intros (l & p & R & (Sx & Sp & Se & Sd & Si & Sf & Sk & So & Sl) & Et & Lc & I & T). unfold pbody.
    destruct ((l_i s <? lim) && negb (l_term s)) eqn:Cnd; cbn [negb].
    2:{ exists l, p, []. rewrite app_nil_r. sp; auto.
        destruct (l_term s) eqn:Bt; [left; congruence|]. cbn [negb] in Cnd. rewrite andb_true_r in Cnd. apply Nat.ltb_ge in Cnd.
        right. split; [reflexivity|lia]. }
    apply andb_prop in Cnd. destruct Cnd as (C1 & C2). apply Nat.ltb_lt in C1. apply negb_true_iff in C2. specialize (Lc C1).
    destruct (Nat.eqb_spec n 0) as [Z|_]; [lia|].
    set (c := Nat.min (Nat.min b (lim - l_i s)) (n - l_cf s)).
    assert (Ec : c = w_c n b lim p) by (unfold c, w_c; rewrite Si, Sf; reflexivity).
    assert (Pc : 0 < c) by (unfold c; lia). assert (Lcc : l_cf s + c <= n) by (unfold c; lia). assert (Lb : c <= b) by (unfold c; lia).
    set (v := vf_eval f (pshuffles (l_tr s)) (l_x s) (l_cf s) c).
    set (g := vf_grad f (pshuffles (l_tr s)) (l_x s) (l_cf s) c). set (g' := pc_hook cb (l_tr s) (l_x s) g).
    set (tr1 := PBoth (l_x s) (l_cf s) c v g g' :: l_tr s).
    assert (I1 : PInv tr1) by (unfold tr1; cbn [PInv]; sp; cbn; auto; discriminate).
    assert (T0 : paskb (l_tr s) = false) by congruence.
    assert (T1 : paskb tr1 = pc_stop cb tr1) by (cbn; rewrite T0, orb_false_r; reflexivity).
    set (t := {| w_val := v; w_g := g; w_g' := g' |}).
    assert (Tr1 : tr1 = rev (ppre ++ events start l ++ [PBoth (q_x p) (q_f p) (w_c n b lim p) v g g'])).
    { rewrite app_assoc, rev_app_distr, <- Et, <- Ec, <- Sx, <- Sf. reflexivity. }
    destruct (pc_stop cb tr1) eqn:Q1.
    { exists l, p, [PBoth (q_x p) (q_f p) (w_c n b lim p) v g g']. cbn [l_tr l_x l_pol l_eta l_d l_over]. sp; auto.
      right. eauto. }
    destruct update as [[[x' ok] pol']|] eqn:U; [|exact Logic.I].
    rewrite Ec, Sx, Se, Sp in U.
    destruct ok.
    2:{ exists l, p, t. cbn [l_tr l_x l_pol l_eta l_d l_over]. sp; auto; try lia. }
    set (tr2 := PStep x' (l_eta s) :: tr1). destruct (decay (l_d s) x' (l_eta s) g') as [d' eta'] eqn:Dc. rewrite Sd, Se in Dc.
    assert (I2 : PInv tr2) by (unfold tr2; cbn [PInv]; sp; cbn [pokev pin_range]; auto; congruence).
    assert (T2 : pc_stop cb tr2 = paskb tr2).
    { change (paskb tr2) with (pc_stop cb tr2 || paskb tr1). rewrite T1, orb_false_r. reflexivity. }
    set (ov := nadd (l_over s) v).
    assert (Ov : ov = w_over p t) by (unfold ov, w_over; rewrite So; reflexivity).
    set (p' := {| q_i := q_i p + c; q_f := if pmore n b lim p then 0 else q_f p + c; q_x := x'; q_pol := pol'; q_eta := eta'; q_d := d';
                  q_k := if pends n b lim p then S (q_k p) else q_k p; q_over := if pmore n b lim p then n0 else ov;
                  q_last := if pmore n b lim p then ov else q_last p |}).
    assert (St : pstep_ok p t p').
    { unfold SpaleraSpec.pstep_ok. rewrite <- Ec, <- Ov. cbn [p' q_i q_f q_x q_pol q_eta q_d q_k q_over q_last]. sp; try reflexivity; auto; try lia.
      rewrite Ec. exact U. }
    assert (Tr2 : tr2 = rev (ppre ++ events start l ++ pmove_events n b lim p t p')).
    { unfold tr2. rewrite Tr1. unfold pmove_events. cbn [p' q_x w_val w_g w_g' t]. rewrite !app_assoc, !rev_app_distr, <- Se. reflexivity. }
    assert (Me : (l_cf s + c) mod n =? 0 = pends n b lim p).
    { unfold pends. rewrite <- Ec, <- Sf. destruct (Nat.eqb_spec (l_cf s + c) n) as [->|Ne]; [rewrite Nat.mod_same; lia || reflexivity|].
      apply Nat.eqb_neq. rewrite Nat.mod_small; lia. }
    rewrite Me. destruct (pends n b lim p) eqn:En; cbn [negb].
    2:{ exists (l ++ [(t, p')]), p'.
        assert (Mo : pmore n b lim p = false) by (unfold pmore; rewrite En; reflexivity).
        sp.
        - eapply prun_snoc; [exact R|exact St|congruence].
        - unfold psame. cbn [l_x l_pol l_eta l_d l_i l_cf l_ep l_over l_last p' q_x q_pol q_eta q_d q_i q_f q_k q_over q_last].
          rewrite Mo, Si, Sf, Sk, Sl. sp; reflexivity.
        - cbn [l_tr]. rewrite (pevents_snoc _ _ _ _ _ R). unfold pepoch_events. rewrite En, app_nil_r. exact Tr2.
        - cbn [l_i l_cf]. intros _. unfold pends in En. rewrite <- Ec, <- Sf in En. apply Nat.eqb_neq in En. lia.
        - exact I2.
        - exact T2. }
    set (tr3 := PEndEpoch (l_ep s) (ndiv ov (nofnat n)) :: tr2).
    assert (I3 : PInv tr3) by (unfold tr3; cbn [PInv]; sp; cbn; auto; discriminate).
    assert (T3 : pc_stop cb tr2 || pc_stop cb tr3 = paskb tr3).
    { change (paskb tr3) with (pc_stop cb tr3 || paskb tr2). rewrite T2. apply orb_comm. }
    destruct (nisnan ov || nisinf ov || nlt (nabs (nsub (l_last s) ov)) tol) eqn:Cv.
    { exists l, p, t, p'. cbn [l_tr l_over l_x l_pol l_eta l_d]. sp; try reflexivity; auto.
      - unfold pconverged, converged. rewrite <- Ov, <- Sl. exact Cv.
      - unfold tr3. rewrite Tr2, Sk, !app_assoc, (rev_app_distr (_ ++ _) [_]), <- Ov. reflexivity. }
    assert (Mo : pmore n b lim p = negb (l_i s + c =? lim)) by (unfold pmore; rewrite En, <- Ec, Si; reflexivity).
    rewrite <- Mo.
    set (tr4 := PBeginEpoch (S (l_ep s)) (if pmore n b lim p then n0 else ov) :: tr3).
    assert (I4 : PInv tr4) by (unfold tr4; cbn [PInv]; sp; cbn; auto; discriminate).
    assert (T4 : (pc_stop cb tr2 || pc_stop cb tr3) || pc_stop cb tr4 = paskb tr4).
    { change (paskb tr4) with (pc_stop cb tr4 || paskb tr3). rewrite T3. apply orb_comm. }
    exists (l ++ [(t, p')]), p'. sp.
    - eapply prun_snoc; [exact R|exact St|]. intros _. unfold pconverged, converged. rewrite <- Ov, <- Sl. exact Cv.
    - unfold psame. cbn [l_x l_pol l_eta l_d l_i l_cf l_ep l_over l_last p' q_x q_pol q_eta q_d q_i q_f q_k q_over q_last].
      rewrite ?En, Si, Sf, Sk, Sl. sp; reflexivity.
    - cbn [l_tr]. rewrite (pevents_snoc _ _ _ _ _ R). unfold pepoch_events. rewrite En.
      rewrite !app_assoc, rev_app_distr, <- (app_assoc ppre), rev_app_distr, <- Tr2, <- Ov, <- Sk.
      unfold tr4, tr3. destruct shuffle; reflexivity.
    - cbn [l_i l_cf]. rewrite Mo. intros L. destruct (Nat.eqb_spec (l_i s + c) lim); cbn [negb]; lia.
    - cbn [l_tr]. destruct shuffle; [cbn [PInv]; sp; cbn; auto; discriminate|exact I4].
    - cbn [l_term l_tr]. destruct shuffle; exact T4.
  Qed.
End P.

Section Top.
  Context {N : Num} {D : Type}.
  Variables (npow : N -> nat -> N) (nexp : N -> N) (tiny alpha epsilon rate : N).
  Variable f : VFun N.
  Variable cb : PCB N.
  Variables (b maxIterations : nat) (tol lambda : N) (shuffle exact : bool).
  Variable decay : D -> list N -> N -> list N -> D * N.
  Hypothesis Hn : 0 < vf_num f.
  Hypothesis Hb : 0 < b.
  Notation n := (vf_num f).
  Notation upd lam := (fun eta v c x g pol => update npow nexp tiny alpha epsilon rate lam eta v c n x g pol).

  Lemma spalera_ok fuel old eta d x r :
    spalera npow nexp tiny alpha epsilon rate f cb b maxIterations tol lambda shuffle exact decay fuel old eta d x = Ret r ->
    exists first s' pol,
      (pol, pr_lam r) = match old with None => (fresh (length x), nmul (ndiv (total first) (nofnat n)) lambda) | Some q => q end /\
      spalera_report (upd (pr_lam r)) decay n b (pmax maxIterations) shuffle tol cb exact first pol eta d x (pr_val r) (pr_tr r) (pr_end r) s' /\
      pr_x r = q_x s' /\ pr_pol r = q_pol s' /\ (pr_end r <> PFailed -> pr_eta r = q_eta s' /\ pr_d r = q_d s') /\
      Forall (pin_range n b) (pr_tr r) /\ pcomputed f cb (pr_tr r) /\ phonoured cb (pr_tr r).
  Proof.
    unfold spalera. destruct pass as [[[ov term] tr0]|] eqn:P0; [|discriminate].
    apply (pass_ok f cb b Hn Hb) in P0. destruct P0 as (first & -> & S0 & -> & I0 & T0).
    change (fold_left nadd (map snd first) n0) with (total first).
    pose proof (slice_split f b _ S0) as Sp0.
    destruct (match old with None => (fresh (length x), nmul (ndiv (total first) (nofnat n)) lambda) | Some q => q end) as [pol lam] eqn:Ol.
    set (tr1 := PBeginEpoch 1 (total first) :: rev (pevs x first) ++ [PBegin x]).
    destruct (loop _ fuel _) as [s|e] eqn:Lp; [discriminate|].
    assert (I1 : PInv f cb b tr1).
    { unfold tr1. cbn [PInv]. sp; [exact Logic.I|exact Logic.I|discriminate|]. apply I0. cbn. sp; auto. }
    assert (Q : PQ npow nexp tiny alpha epsilon rate f cb b maxIterations tol shuffle decay lam first pol eta d x e).
    { refine (loop_inv_done _ _ _ (pbody_ok npow nexp tiny alpha epsilon rate f cb b maxIterations tol shuffle decay Hn Hb lam first pol eta d x) _ _ _ _ Lp).
      exists [], (pstart (total first) pol eta d x). cbn [SpaleraSpec.prun prun_events]. rewrite app_nil_r. sp; auto.
      - unfold psame. cbn. sp; reflexivity.
      - unfold ppre. cbn [l_tr rev]. unfold tr1. rewrite rev_app_distr. reflexivity.
      - cbn [l_term l_tr]. unfold tr1. cbn [paskb pasks]. rewrite <- (T0 eq_refl). apply orb_comm. }
    assert (End : forall tr y, PInv f cb b tr -> Forall (pin_range n b) (rev (PEnd y :: tr)) /\ pcomputed f cb (rev (PEnd y :: tr)) /\ phonoured cb (rev (PEnd y :: tr))).
    { intros tr y I. apply PInv_final; auto. cbn. repeat split; auto; discriminate. }
    assert (Pre : forall l : list (pev N), ppre first x ++ l = PBegin x :: pevs x first ++ [PBeginEpoch 1 (total first)] ++ l).
    { intros l. unfold ppre. cbn [app]. rewrite <- app_assoc. reflexivity. }
    destruct e as [s|s|s|]; try discriminate; cbn [PQ] in Q.
    - destruct Q as (l & p & rest & R & Et & Re & Sx & Sp & Se & Sd & So & St & I).
      assert (St' : pasked cb (ppre first x ++ prun_events n b (pmax maxIterations) shuffle (pstart (total first) pol eta d x) l ++ rest) \/ (rest = [] /\ pmax maxIterations <= q_i p)).
      { destruct St as [St|St]; [left|right; exact St]. apply (paskb_spec cb) in St. rewrite Et, rev_involutive in St. exact St. }
      destruct exact.
      + destruct pass as [[[v tm] tr]|] eqn:P; [|discriminate]. intros [= <-].
        apply (pass_ok f cb b Hn Hb) in P. destruct P as (lf & -> & S1 & V & I2 & _). specialize (I2 I).
        exists first, p, pol. cbn [pr_val pr_x pr_tr pr_end pr_pol pr_eta pr_d pr_lam]. sp; auto; try (apply End; exact I2).
        split; [exact Sp0|]. exists l, p. split; [exact R|]. split; [reflexivity|]. exists rest, lf. sp; auto.
        * rewrite Et, <- Sx. rewrite <- rev_app_distr. cbn [rev]. rewrite rev_involutive. unfold ppre. cbn [app]. rewrite <- ?app_assoc. cbn [app]. rewrite <- ?app_assoc. reflexivity.
        * apply (slice_split f b _ S1).
      + intros [= <-]. exists first, p, pol. cbn [pr_val pr_x pr_tr pr_end pr_pol pr_eta pr_d pr_lam]. sp; auto; try (apply End; exact I).
        split; [exact Sp0|]. exists l, p. split; [exact R|]. split; [reflexivity|]. exists rest, []. sp; auto.
        rewrite Et, Sx. cbn [rev pevs map app]. rewrite rev_involutive. unfold ppre. cbn [app]. rewrite <- ?app_assoc. cbn [app]. rewrite <- ?app_assoc. reflexivity.
    - destruct Q as (l & p & t & p' & R & St & En & Cv & Et & Ov & I & Sx & Sp & Se & Sd). intros [= <-].
      exists first, p', pol. cbn [pr_val pr_x pr_tr pr_end pr_pol pr_eta pr_d pr_lam]. sp; auto; try (apply End; exact I).
      split; [exact Sp0|]. exists l, p. split; [exact R|]. exists t. sp; auto.
      rewrite Et, Sx. cbn [rev]. rewrite rev_involutive. unfold ppre. cbn [app]. rewrite <- ?app_assoc. cbn [app]. rewrite <- ?app_assoc. reflexivity.
    - destruct Q as (l & p & t & R & Lf & Li & Pc & U & Et & Ov & I & Se & Sd). intros [= <-].
      exists first, {| q_i := 0; q_f := 0; q_x := l_x s; q_pol := l_pol s; q_eta := q_eta p; q_d := q_d p; q_k := 0; q_over := n0; q_last := n0 |}, pol.
      cbn [pr_val pr_x pr_tr pr_end pr_pol pr_eta pr_d pr_lam q_x q_pol q_eta q_d]. sp; auto; try (apply End; exact I); try congruence.
      split; [exact Sp0|]. exists l, p. split; [exact R|]. exists t. sp; auto.
      rewrite Et. cbn [rev q_x]. rewrite rev_involutive. unfold ppre. cbn [app]. rewrite <- ?app_assoc. cbn [app]. rewrite <- ?app_assoc. reflexivity.
  Qed.
End Top.
