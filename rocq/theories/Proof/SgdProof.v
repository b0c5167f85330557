From Coq Require Import List Arith Bool Lia.
From Verif.Base Require Import Num Loop Size.
From Verif.Model Require Import Sgd.
From Verif.Spec Require Import SgdSpec.
Import ListNotations.

Section P.
  Context {N : Num} {X G U D : Type}.
  Variable c : Cfg N X G U D.
  Variable f : SepFun N X G.
  Variable cb : Callbacks N X G.
  Notation event := (event N X G).
  Notation st := (st N X G U D).
  Notation res := (res N X G U D).

  Lemma actual_max_limit : actual_max c = limit (c_max c).
  Proof. unfold actual_max, limit. destruct (c_max c); reflexivity. Qed.

  Lemma actual_max_pos : 0 < actual_max c.
  Proof.
    unfold actual_max. destruct (Nat.eqb_spec (c_max c) 0); [apply size_max_pos | lia].
  Qed.

  (** ** Reading a trace that grows at its end *)
  Lemma visited_app tr1 : forall k tr2,
    visited k (tr1 ++ tr2) = visited k tr1 ++ visited (k + count_shuffles tr1) (tr2 : list event).
  Proof.
    induction tr1 as [|e tr1 IH]; intros k tr2; cbn [app visited count_shuffles].
    - rewrite Nat.add_0_r; reflexivity.
    - destruct e; rewrite IH; rewrite ?app_assoc; try reflexivity.
      rewrite Nat.add_succ_r; reflexivity.
  Qed.
  Lemma count_shuffles_app (tr1 tr2 : list event) :
    count_shuffles (tr1 ++ tr2) = count_shuffles tr1 + count_shuffles tr2.
  Proof. induction tr1 as [|[] tr1 IH]; cbn; rewrite ?IH; reflexivity. Qed.
  Lemma count_shuffles_rev (tr : list event) : count_shuffles (rev tr) = count_shuffles tr.
  Proof.
    induction tr as [|e tr IH]; [reflexivity|]. cbn [rev]. rewrite count_shuffles_app, IH.
    destruct e; cbn; lia.
  Qed.
  Lemma since_app (tr1 : list event) : forall acc tr2, since acc (tr1 ++ tr2) = since (since acc tr1) tr2.
  Proof. induction tr1 as [|[] tr1 IH]; intros; cbn; rewrite ?IH; reflexivity. Qed.
  Definition accum (acc : N) (tr : list event) : N :=
    fold_left (fun a e => match e with EvalGrad _ _ _ o _ => nadd a o | EndEpoch _ _ _ => n0 | _ => a end) tr acc.
  Lemma pass_sums_app (tr1 : list event) : forall acc tr2,
    pass_sums acc (tr1 ++ tr2) = pass_sums acc tr1 ++ pass_sums (accum acc tr1) tr2.
  Proof. induction tr1 as [|[] tr1 IH]; intros; cbn; rewrite ?IH; reflexivity. Qed.
  Lemma accum_app (tr1 : list event) acc tr2 : accum acc (tr1 ++ tr2) = accum (accum acc tr1) tr2.
  Proof. unfold accum. apply fold_left_app. Qed.
  Lemma accum_since (tr : list event) : forall l, accum (sum l) tr = sum (since l tr).
  Proof.
    induction tr as [|e tr IH]; intros l; [reflexivity|].
    destruct e; try exact (IH l).
    - exact (IH []).
    - change (accum (nadd (sum l) obj) tr = sum (since (l ++ [obj]) tr)).
      rewrite <- IH. unfold sum. rewrite fold_left_app. reflexivity.
  Qed.
  Lemma accum_since0 (tr : list event) : accum n0 tr = sum (since [] tr).
  Proof. apply (accum_since tr []). Qed.

  Lemma runs_snoc sh ex p tr q e r :
    runs f sh ex p tr q -> pstep f sh ex q e r -> runs f sh ex p (tr ++ [e]) r.
  Proof.
    intros H S. induction H as [p|p e' q' tr r' H1 H2 IH]; cbn [app].
    - econstructor; [exact S|constructor].
    - econstructor; [exact H1|apply IH; exact S].
  Qed.

  Definition ne_list {A} (l : list A) : bool := match l with [] => false | _ => true end.

  (** ** Schedule of visits *)
  Definition sched (total : nat) : list (nat * nat) :=
    map (fun j => ((if c_shuffle c then j / sf_num f else 0), j mod sf_num f)) (seq 0 total).

  Lemma sched_extend q m k : 0 < sf_num f -> m + k <= sf_num f ->
    sched (q * sf_num f + m + k) =
    sched (q * sf_num f + m) ++ map (pair (if c_shuffle c then q else 0)) (seq m k).
  Proof.
    intros Hn Hk. unfold sched. rewrite seq_app, map_app. f_equal. cbn [Nat.add].
    replace (seq (q * sf_num f + m) k) with (map (fun j => q * sf_num f + j) (seq m k)).
    2:{ clear. revert m. induction k as [|k IH]; intros m; [reflexivity|]. cbn [seq map]. f_equal.
        rewrite IH. f_equal. f_equal. lia. }
    rewrite map_map. apply map_ext_in. intros j Hj. apply in_seq in Hj.
    rewrite Nat.add_comm, Nat.div_add, Nat.mod_add by lia.
    rewrite Nat.div_small, Nat.mod_small by lia. reflexivity.
  Qed.

  (** ** Stop requests *)
  Definition nostop (h : list event) : Prop :=
    forall post e pre, h = post ++ e :: pre -> asks e = true -> cb_stop cb (e :: pre) = false.
  (* newest first *)
  Definition quiet (h : list event) : Prop :=
    forall post e pre, h = post ++ e :: pre -> asks e = true -> cb_stop cb (e :: pre) = true ->
      forall e', In e' post ->
        is_evalgrad e' = false /\
        (forall y, e' = Step y -> is_evalgrad e = true /\ exists p1, post = p1 ++ [e']).

  Lemma nostop_cons e h : nostop h -> (asks e = true -> cb_stop cb (e :: h) = false) -> nostop (e :: h).
  Proof.
    intros H He post e' pre E A. destruct post as [|p post]; cbn in E.
    - injection E as -> ->. auto.
    - injection E as -> ->. eapply H; [reflexivity|exact A].
  Qed.
  Lemma nostop_nonask e h : nostop h -> asks e = false -> nostop (e :: h).
  Proof. intros H A. apply nostop_cons; [exact H|congruence]. Qed.

  Lemma quiet_cons e h : quiet h -> is_evalgrad e = false -> (forall y, e <> Step y) -> quiet (e :: h).
  Proof.
    intros H He Hs post e1 pre E A St e2 Hin. destruct post as [|p post]; cbn in E; [destruct Hin|].
    injection E as -> ->. destruct Hin as [->|Hin].
    - split; [exact He|]. intros y Ey. exfalso. eapply Hs. exact Ey.
    - destruct (H post e1 pre eq_refl A St e2 Hin) as [H1 H2]. split; [exact H1|].
      intros y Ey. destruct (H2 y Ey) as [Hg [p1 ->]]. split; [exact Hg|]. exists (p :: p1). reflexivity.
  Qed.
  Lemma quiet_grad e h : nostop h -> quiet (e :: h).
  Proof.
    intros H post e1 pre E A St e2 Hin. destruct post as [|p post]; cbn in E; [destruct Hin|].
    injection E as -> ->. rewrite (H post e1 pre eq_refl A) in St. discriminate.
  Qed.
  Lemma quiet_step y e h : is_evalgrad e = true -> nostop h -> quiet (Step y :: e :: h).
  Proof.
    intros He H post e1 pre E A St e2 Hin. destruct post as [|p post]; cbn in E; [destruct Hin|].
    injection E as <- E. destruct post as [|p post]; cbn in E.
    - injection E as -> ->. destruct Hin as [<-|[]]. split; [reflexivity|].
      intros y' _. split; [exact He|]. exists []. reflexivity.
    - injection E as -> ->. rewrite (H post e1 pre eq_refl A) in St. discriminate.
  Qed.

  (* "some event of the history made a callback ask to stop", newest first *)
  Definition stopped (h : list event) : Prop :=
    exists post e pre, h = post ++ e :: pre /\ asks e = true /\ cb_stop cb (e :: pre) = true.
  Lemma stopped_cons e h : stopped h -> stopped (e :: h).
  Proof. intros (post & e' & pre & -> & H). exists (e :: post), e', pre. auto. Qed.
  Lemma stopped_here e h : asks e = true -> cb_stop cb (e :: h) = true -> stopped (e :: h).
  Proof. intros. exists [], e, h. auto. Qed.
  Lemma stopped_requested h : stopped h -> stop_requested cb (rev h).
  Proof.
    intros (post & e & pre & -> & A & S). exists (rev pre), e, (rev post).
    rewrite rev_app_distr. cbn [rev]. rewrite <- app_assoc. split; [reflexivity|]. split; [exact A|].
    rewrite rev_app_distr, rev_involutive. exact S.
  Qed.

  (* flag and history agree *)
  Definition flag (t : bool) (h : list event) : Prop :=
    if t then stopped h else nostop h.
  Lemma flag_ask t e h : flag t h -> asks e = true -> flag (ask cb t (e :: h)) (e :: h).
  Proof.
    intros F A. unfold ask. destruct t; cbn.
    - apply stopped_cons; exact F.
    - destruct (cb_stop cb (e :: h)) eqn:E; cbn.
      + apply stopped_here; assumption.
      + apply nostop_cons; [exact F|auto].
  Qed.
  Lemma flag_other t e h : flag t h -> asks e = false -> flag t (e :: h).
  Proof. intros F A. destruct t; cbn in *; [apply stopped_cons|apply nostop_nonask]; assumption. Qed.

  (** ** Convergence *)
  Lemma last_dflt {A} (l : list A) a b : l <> [] -> last l a = last l b.
  Proof.
    intros H. induction l as [|x l IH]; [congruence|]. destruct l as [|y l]; [reflexivity|].
    cbn [last] in *. apply IH. discriminate.
  Qed.
  Lemma never_snoc tol : forall ps prev v, never_converged (N := N) tol prev ps ->
    converged tol (last ps prev) v = false -> never_converged tol prev (ps ++ [v]).
  Proof.
    induction ps as [|a ps IH]; intros prev v H Hv; cbn in *; [auto|].
    destruct H as [Ha H]. split; [exact Ha|]. apply IH; [exact H|].
    destruct ps; [exact Hv|]. rewrite (last_dflt _ a prev); [exact Hv|discriminate].
  Qed.

  Lemma stops_snoc tol : forall ps prev v, never_converged (N := N) tol prev ps ->
    converged tol (last ps prev) v = true -> stops_at tol prev (ps ++ [v]).
  Proof.
    induction ps as [|a ps IH]; intros prev v H Hv; cbn in *; [auto|].
    destruct H as [Ha H].
    assert (stops_at tol a (ps ++ [v])) as Hs.
    { apply IH; [exact H|].
      destruct ps; [exact Hv|]. rewrite (last_dflt _ a prev); [exact Hv|discriminate]. }
    destruct (ps ++ [v]) eqn:E; [destruct ps; discriminate|]. split; assumption.
  Qed.

  (** ** One round of the loop *)
  Definition after (s : st) : st :=
    let k := effective_batch c f s in
    let og := sf_evalgrad f (s_shuf s) (s_x s) (s_cf s) k in
    let tr1 := EvalGrad (s_x s) (s_cf s) k (fst og) (snd og) :: s_tr s in
    let g' := cb_grad cb tr1 (snd og) in
    let ux := c_up c (s_u s) (s_x s) (s_step s) g' in
    let tr2 := Step (snd ux) :: tr1 in
    let ds := c_dp c (s_d s) (snd ux) (s_step s) g' in
    {| s_i := s_i s + k; s_cf := s_cf s + k; s_epoch := s_epoch s;
       s_overall := nadd (s_overall s) (fst og); s_last := s_last s;
       s_term := ask cb (ask cb (s_term s) tr1) tr2;
       s_x := snd ux; s_u := fst ux; s_d := fst ds; s_step := snd ds;
       s_shuf := s_shuf s; s_tr := tr2 |}.

  Lemma body_eq s :
    body c f cb s =
    if negb ((s_i s <? actual_max c) && negb (s_term s)) then inr (Xloop s)
    else if sf_num f =? 0 then inr Xub
    else if (s_cf (after s) mod sf_num f) =? 0 then epoch_end c f cb (after s) else inl (after s).
  Proof.
    unfold body, after. destruct (negb _); [reflexivity|].
    destruct (sf_evalgrad f (s_shuf s) (s_x s) (s_cf s) (effective_batch c f s)) as [o g]. cbn [fst snd].
    destruct (c_up c (s_u s) (s_x s) (s_step s) _) as [u' x']. cbn [fst snd].
    destruct (c_dp c (s_d s) x' (s_step s) _) as [d' st']. cbn [fst snd]. reflexivity.
  Qed.

  Definition batch_ok (e : event) : Prop :=
    match e with EvalGrad _ b k _ _ => 0 < k <= c_batch c /\ b + k <= sf_num f | _ => True end.

  Section Run.
  Variables (x0 : X) (u0 : U) (d0 : D) (st0 : N).
  Hypothesis Hn : 0 < sf_num f.
  Hypothesis Hb : 0 < c_batch c.

  Notation chron s := (rev (s_tr s)).
  Notation MV := (moved f (c_up c) (c_dp c) cb x0 u0 d0 st0).
  Notation RUNS := (runs f (c_shuffle c) (c_exact c)).

  (* at line 166 *)
  Record Mid (s : st) : Prop := {
    m_vis : visited 0 (chron s) = sched (s_i s);
    m_shuf : s_shuf s = count_shuffles (s_tr s);
    m_q : exists q, s_i s = q * sf_num f + s_cf s /\ s_shuf s = (if c_shuffle c then q else 0);
    m_cf : 0 < s_cf s <= sf_num f;
    m_i : s_i s <= actual_max c;
    m_runs : RUNS PStart (chron s) (PStepped (s_x s) (s_epoch s) (s_overall s));
    m_overall : s_overall s = accum n0 (chron s);
    m_since : since [] (chron s) <> [];
    m_last : s_last s = last (pass_sums n0 (chron s)) nmax;
    m_never : never_converged (c_tol c) nmax (pass_sums n0 (chron s));
    m_flag : flag (s_term s) (s_tr s);
    m_quiet : quiet (s_tr s);
    m_mv : MV (s_tr s) (s_x s) (s_u s) (s_d s) (s_step s);
    m_batch : Forall batch_ok (s_tr s);
  }.

  (* at line 130 *)
  Record Inv (s : st) : Prop := {
    i_vis : visited 0 (chron s) = sched (s_i s);
    i_shuf : s_shuf s = count_shuffles (s_tr s);
    i_i : s_i s <= actual_max c;
    i_go : s_i s < actual_max c ->
       (exists q, s_i s = q * sf_num f + s_cf s /\ s_shuf s = (if c_shuffle c then q else 0)) /\
       s_cf s < sf_num f /\ s_overall s = accum n0 (chron s) /\
       s_last s = last (pass_sums n0 (chron s)) nmax;
    i_full : s_i s = actual_max c ->
       (since [] (chron s) <> [] /\ s_overall s = accum n0 (chron s)) \/
       (since [] (chron s) = [] /\ exists ps, pass_sums n0 (chron s) = ps ++ [s_overall s]);
    i_runs : exists acc, acc = accum n0 (chron s) /\
               (RUNS PStart (chron s) (PReady (s_x s) (s_epoch s) acc) \/
                RUNS PStart (chron s) (PStepped (s_x s) (s_epoch s) acc));
    i_never : never_converged (c_tol c) nmax (pass_sums n0 (chron s));
    i_flag : flag (s_term s) (s_tr s);
    i_quiet : quiet (s_tr s);
    i_mv : MV (s_tr s) (s_x s) (s_u s) (s_d s) (s_step s);
    i_batch : Forall batch_ok (s_tr s);
  }.

  Lemma init_inv : Inv (init cb x0 u0 d0 st0).
  Proof.
    pose proof actual_max_pos as Hm.
    constructor; cbn [init s_i s_cf s_shuf s_tr s_overall s_last s_x s_u s_d s_step s_term s_epoch rev app visited count_shuffles].
    - reflexivity.
    - reflexivity.
    - lia.
    - intros _. split; [|split; [|split]]; try reflexivity; [|exact Hn].
      exists 0. destruct (c_shuffle c); auto.
    - lia.
    - exists n0. split; [reflexivity|]. left. repeat econstructor.
    - exact I.
    - destruct (cb_stop cb [BeginEpoch x0 1 n0; BeginOpt x0]) eqn:E; cbn.
      + apply stopped_here; [reflexivity|exact E].
      + apply nostop_cons; [|auto]. apply nostop_cons; [|discriminate].
        intros [|? ?] ? ? ?; discriminate.
    - apply quiet_cons; [apply quiet_cons| |]; try reflexivity; try discriminate.
      intros [|? ?] ? ? ?; discriminate.
    - apply mv_other; [|exact I]. apply mv_other; [|exact I]. constructor.
    - repeat constructor.
  Qed.

  Lemma after_mid s : Inv s -> s_i s < actual_max c -> s_term s = false -> Mid (after s).
  Proof.
    intros H Hi Ht. destruct H as [Hvis Hshuf Hile Hgo _ [acc [Eacc Hruns]] Hnev Hflag Hq Hmv Hbat].
    destruct (Hgo Hi) as [[q [Eq Esh]] [Hcf [Eov Elast]]]. clear Hgo.
    assert (Hk : 0 < effective_batch c f s /\ s_i s + effective_batch c f s <= actual_max c /\
                 s_cf s + effective_batch c f s <= sf_num f).
    { unfold effective_batch. lia. }
    destruct Hk as [Hk1 [Hk2 Hk3]].
    unfold after. cbv zeta. set (k := effective_batch c f s) in *.
    destruct (sf_evalgrad f (s_shuf s) (s_x s) (s_cf s) k) as [o g] eqn:Eog.
    cbn [fst snd]. set (e1 := EvalGrad (s_x s) (s_cf s) k o g) in *.
    set (g' := cb_grad cb (e1 :: s_tr s) g).
    set (x' := snd (c_up c (s_u s) (s_x s) (s_step s) g')).
    assert (Cr : rev (Step x' :: e1 :: s_tr s) = (chron s ++ [e1]) ++ [Step x']) by reflexivity.
    constructor; cbn [s_i s_cf s_shuf s_tr s_overall s_last s_x s_u s_d s_step s_term s_epoch]; rewrite ?Cr.
    - rewrite !visited_app. cbn [visited e1 app]. rewrite !app_nil_r. rewrite Hvis.
      rewrite count_shuffles_rev, <- Hshuf. cbn [Nat.add]. rewrite Esh.
      rewrite Eq at 1. rewrite Eq. symmetry. rewrite sched_extend; [|exact Hn|exact Hk3].
      reflexivity.
    - cbn. exact Hshuf.
    - exists q. split; [lia|exact Esh].
    - lia.
    - lia.
    - eapply runs_snoc; [|apply p_step]. rewrite Eov, <- Eacc.
      destruct Hruns as [R|R]; (eapply runs_snoc; [exact R|constructor]).
    - rewrite !accum_app, <- Eov. reflexivity.
    - rewrite !since_app. cbn. intros E. apply (f_equal (@length _)) in E.
      rewrite app_length in E. cbn in E. lia.
    - rewrite !pass_sums_app. cbn. rewrite !app_nil_r. exact Elast.
    - rewrite !pass_sums_app. cbn. rewrite !app_nil_r. exact Hnev.
    - apply flag_ask; [|reflexivity]. apply flag_ask; [|reflexivity]. exact Hflag.
    - apply quiet_step; [reflexivity|]. rewrite Ht in Hflag. exact Hflag.
    - unfold x', g', e1. apply (mv_step f (c_up c) (c_dp c) cb x0 u0 d0 st0); [exact Hmv|].
      rewrite <- Hshuf. exact Eog.
    - constructor; [exact I|]. constructor; [|exact Hbat]. cbn. unfold k, effective_batch in *. lia.
  Qed.

  Lemma mid_inv s : Mid s -> s_cf s < sf_num f -> Inv s.
  Proof.
    intros [Hvis Hshuf Hqq Hcf Hi Hruns Hov Hsince Hlast Hnev Hflag Hq Hmv Hbat] Hlt.
    constructor; auto.
    - exists (s_overall s). split; [exact Hov|]. right; exact Hruns.
  Qed.

  (* what is known when the function returns from inside the loop *)
  Record Ret (s : st) : Prop := {
    t_vis : visited 0 (chron s) = sched (s_i s);
    t_i : s_i s <= actual_max c;
    t_runs : exists e acc, RUNS PStart (chron s) (PEnded (s_x s) e acc);
    t_since : since [] (chron s) = [];
    t_pass : exists ps, pass_sums n0 (chron s) = ps ++ [s_overall s];
    t_stops : stops_at (c_tol c) nmax (pass_sums n0 (chron s));
    t_quiet : quiet (s_tr s);
    t_mv : MV (s_tr s) (s_x s) (s_u s) (s_d s) (s_step s);
    t_batch : Forall batch_ok (s_tr s);
  }.

  Lemma epoch_end_ok s : Mid s -> s_cf s = sf_num f ->
    match epoch_end c f cb s with
    | inl s' => Inv s'
    | inr (Xret s') => Ret s'
    | inr _ => False
    end.
  Proof.
    intros [Hvis Hshuf [q [Eq Esh]] Hcf Hi Hruns Hov Hsince Hlast Hnev Hflag Hq Hmv Hbat] Ecf.
    unfold epoch_end. cbv zeta.
    set (e1 := EndEpoch (s_x s) (s_epoch s) (ndiv (s_overall s) (nofnat (sf_num f)))).
    assert (R1 : RUNS PStart (chron s ++ [e1]) (PEnded (s_x s) (s_epoch s) (s_overall s))).
    { eapply runs_snoc; [exact Hruns|constructor]. }
    assert (PS : pass_sums n0 (chron s ++ [e1]) = pass_sums n0 (chron s) ++ [s_overall s]).
    { rewrite pass_sums_app, <- Hov. reflexivity. }
    assert (F1 : flag (ask cb (s_term s) (e1 :: s_tr s)) (e1 :: s_tr s)) by (apply flag_ask; [exact Hflag|reflexivity]).
    assert (Q1 : quiet (e1 :: s_tr s)) by (apply quiet_cons; [exact Hq|reflexivity|discriminate]).
    assert (M1 : MV (e1 :: s_tr s) (s_x s) (s_u s) (s_d s) (s_step s)) by (apply mv_other; [exact Hmv|exact I]).
    assert (V1 : visited 0 (chron s ++ [e1]) = sched (s_i s)).
    { rewrite visited_app. cbn. rewrite app_nil_r. exact Hvis. }
    assert (RetOK : forall b, converged (c_tol c) (s_last s) (s_overall s) = true ->
      Ret {| s_i := s_i s; s_cf := s_cf s; s_epoch := S (s_epoch s); s_overall := s_overall s;
             s_last := s_last s; s_term := b; s_x := s_x s; s_u := s_u s; s_d := s_d s;
             s_step := s_step s; s_shuf := s_shuf s; s_tr := e1 :: s_tr s |}).
    { intros b Hc. constructor; cbn [s_i s_cf s_shuf s_tr s_overall s_last s_x s_u s_d s_step s_term s_epoch rev]; auto.
      - eexists; eexists; exact R1.
      - rewrite since_app. reflexivity.
      - eexists; exact PS.
      - rewrite PS. apply stops_snoc; [exact Hnev|]. rewrite <- Hlast. exact Hc.
      - constructor; [exact I|exact Hbat]. }
    unfold converged in RetOK.
    destruct (nisnan (s_overall s) || nisinf (s_overall s)) eqn:Enan.
    { apply RetOK. reflexivity. }
    destruct (nlt (nabs (nsub (s_last s) (s_overall s))) (c_tol c)) eqn:Etol.
    { apply RetOK. reflexivity. }
    clear RetOK.
    set (e2 := BeginEpoch (s_x s) (S (s_epoch s)) (s_overall s)).
    assert (Nev : never_converged (c_tol c) nmax (pass_sums n0 (chron s ++ [e1]))).
    { rewrite PS. apply never_snoc; [exact Hnev|]. rewrite <- Hlast. unfold converged. rewrite Enan, Etol. reflexivity. }
    assert (F2 : forall t, flag t (e1 :: s_tr s) -> flag (ask cb t (e2 :: e1 :: s_tr s)) (e2 :: e1 :: s_tr s)).
    { intros t Ft. apply flag_ask; [exact Ft|reflexivity]. }
    assert (Q2 : quiet (e2 :: e1 :: s_tr s)) by (apply quiet_cons; [exact Q1|reflexivity|discriminate]).
    assert (M2 : MV (e2 :: e1 :: s_tr s) (s_x s) (s_u s) (s_d s) (s_step s)) by (apply mv_other; [exact M1|exact I]).
    set (more := negb (s_i s =? actual_max c)).
    set (tr3 := if c_shuffle c then Shuffled :: e2 :: e1 :: s_tr s else e2 :: e1 :: s_tr s).
    assert (Sh : count_shuffles tr3 = if c_shuffle c then S (count_shuffles (s_tr s)) else count_shuffles (s_tr s)).
    { unfold tr3. destruct (c_shuffle c); reflexivity. }
    assert (V3 : visited 0 (rev tr3) = sched (s_i s)).
    { unfold tr3. destruct (c_shuffle c); cbn [rev]; rewrite !visited_app; cbn; rewrite !app_nil_r; exact Hvis. }
    assert (A3 : accum n0 (rev tr3) = n0).
    { unfold tr3. destruct (c_shuffle c); cbn [rev]; rewrite !accum_app; reflexivity. }
    assert (S3 : since [] (rev tr3) = []).
    { unfold tr3. destruct (c_shuffle c); cbn [rev]; rewrite !since_app; reflexivity. }
    assert (P3 : pass_sums n0 (rev tr3) = pass_sums n0 (chron s) ++ [s_overall s]).
    { rewrite Hov. unfold tr3. destruct (c_shuffle c); cbn [rev]; rewrite !pass_sums_app;
      cbn [pass_sums e1 e2]; rewrite !app_nil_r; reflexivity. }
    constructor; cbn [s_i s_cf s_shuf s_tr s_overall s_last s_x s_u s_d s_step s_term s_epoch]; fold tr3.
    - exact V3.
    - rewrite Sh, Hshuf. reflexivity.
    - exact Hi.
    - intros Hlt. assert (more = true) as -> by (unfold more; destruct (Nat.eqb_spec (s_i s) (actual_max c)); [lia|reflexivity]).
      split; [|split; [|split]].
      + exists (S q). split; [lia|]. rewrite Esh. destruct (c_shuffle c); reflexivity.
      + exact Hn.
      + symmetry; exact A3.
      + rewrite P3, last_last. reflexivity.
    - intros He. right. split; [exact S3|]. exists (pass_sums n0 (chron s)). rewrite P3.
      unfold more. rewrite He, Nat.eqb_refl. reflexivity.
    - exists n0. split; [symmetry; exact A3|]. left. unfold tr3.
      destruct (c_shuffle c) eqn:Es; cbn [rev].
      + eapply runs_snoc; [|apply p_shuffle]. eapply runs_snoc; [exact R1|]. apply p_next'. reflexivity.
      + eapply runs_snoc; [exact R1|]. apply p_next. reflexivity.
    - rewrite P3, <- PS. exact Nev.
    - unfold tr3. destruct (c_shuffle c); [apply flag_other; [|reflexivity]|]; apply F2; exact F1.
    - unfold tr3. destruct (c_shuffle c); [apply quiet_cons; [|reflexivity|discriminate]|]; exact Q2.
    - unfold tr3. destruct (c_shuffle c); [apply mv_other; [|exact I]|]; exact M2.
    - unfold tr3. destruct (c_shuffle c); repeat (constructor; [exact I|]); exact Hbat.
  Qed.

  Lemma body_ok s : Inv s ->
    match body c f cb s with
    | inl s' => Inv s' /\ s_i s < s_i s'
    | inr (Xloop s') => Inv s' /\ (s_i s' = actual_max c \/ s_term s' = true)
    | inr (Xret s') => Ret s'
    | inr Xub => False
    end.
  Proof.
    intros H. rewrite body_eq.
    destruct (Nat.ltb_spec (s_i s) (actual_max c)) as [Hlt|Hge]; cbn [andb negb].
    2:{ split; [exact H|]. left. pose proof (i_i _ H). lia. }
    destruct (s_term s) eqn:Et; cbn [negb].
    { split; [exact H|]. right; exact Et. }
    destruct (Nat.eqb_spec (sf_num f) 0) as [|_]; [lia|].
    pose proof (after_mid s H Hlt Et) as M.
    assert (Hgrow : s_i s < s_i (after s)).
    { pose proof (i_go _ H Hlt) as (_ & Hc & _). cbn. unfold effective_batch. lia. }
    pose proof (m_cf _ M) as Hcf.
    destruct (Nat.eqb_spec (s_cf (after s) mod sf_num f) 0) as [E|E].
    - assert (s_cf (after s) = sf_num f) as Ef.
      { destruct (Nat.eq_dec (s_cf (after s)) (sf_num f)); [assumption|].
        rewrite Nat.mod_small in E by lia. lia. }
      pose proof (epoch_end_ok _ M Ef) as K.
      assert (L : forall s', epoch_end c f cb (after s) = inl s' -> s_i s' = s_i (after s)).
      { intros s'. unfold epoch_end. cbv zeta. destruct (nisnan _ || nisinf _); [discriminate|].
        destruct (nlt _ _); [discriminate|]. intros Hs. injection Hs as <-. reflexivity. }
      destruct (epoch_end c f cb (after s)) as [s'|[s'|s'|]]; try contradiction; auto.
      split; [exact K|]. rewrite (L s' eq_refl). exact Hgrow.
    - split; [|exact Hgrow]. apply mid_inv; [exact M|].
      destruct (Nat.eq_dec (s_cf (after s)) (sf_num f)) as [Ef|Ef]; [|lia].
      rewrite Ef, Nat.mod_same in E by lia. lia.
  Qed.

  Lemma loop_ok fuel e : loop (body c f cb) fuel (init cb x0 u0 d0 st0) = inr e ->
    match e with
    | Xloop s => Inv s /\ (s_i s = actual_max c \/ s_term s = true)
    | Xret s => Ret s
    | Xub => False
    end.
  Proof.
    intros H.
    refine (loop_inv_done (body c f cb) Inv
      (fun e => match e with Xloop s => Inv s /\ (s_i s = actual_max c \/ s_term s = true)
                           | Xret s => Ret s | Xub => False end) _ fuel _ e init_inv H).
    intros s Hs. pose proof (body_ok s Hs) as K.
    destruct (body c f cb s) as [s'|[s'|s'|]]; tauto.
  Qed.

  Lemma loop_term fuel : actual_max c < fuel ->
    exists e, loop (body c f cb) fuel (init cb x0 u0 d0 st0) = inr e.
  Proof.
    intros Hf. apply (loop_terminates _ Inv (fun s => actual_max c - s_i s)); [|apply init_inv|cbn; lia].
    intros s Hs. pose proof (body_ok s Hs) as K. destruct (body c f cb s) as [s'|e]; [|exact I].
    destruct K as [K1 K2]. split; [exact K1|]. pose proof (i_i _ K1). lia.
  Qed.

  (** ** The exact objective *)
  Fixpoint ex_events (x : X) (shuf : nat) (m i : nat) : list event :=
    match m with
    | O => []
    | S m' => let k := Nat.min (c_batch c) (sf_num f - i) in
              Eval x i k (sf_eval f shuf x i k) :: ex_events x shuf m' (i + c_batch c)
    end.

  Lemma exact_loop_spec : forall fuel shuf x i acc tr v tr',
    exact_loop c f fuel shuf x i acc tr = Some (v, tr') ->
    exists m, tr' = rev (ex_events x shuf m i) ++ tr /\
      sf_num f <= i + m * c_batch c /\ (m = 0 \/ i + (m - 1) * c_batch c < sf_num f) /\
      v = fold_left nadd (map (fun k => let b := i + k * c_batch c in
              sf_eval f shuf x b (Nat.min (c_batch c) (sf_num f - b))) (seq 0 m)) acc.
  Proof.
    induction fuel as [|fuel IH]; intros shuf x i acc tr v tr' H; cbn [exact_loop] in H;
      destruct (Nat.ltb_spec i (sf_num f)) as [Hi|Hi]; try discriminate.
    - injection H as <- <-. exists 0. cbn. split; [reflexivity|]. split; [lia|]. auto.
    - apply IH in H as (m & Etr & H1 & H2 & Hv). exists (S m).
      split; [|split; [|split]].
      + rewrite Etr. cbn [ex_events rev]. rewrite <- app_assoc. reflexivity.
      + cbn [Nat.mul]. lia.
      + right. destruct m; [lia|]. destruct H2 as [H2|H2]; [lia|].
        replace (S (S m) - 1) with (S m) by lia. replace (S m - 1) with m in H2 by lia. cbn [Nat.mul]. lia.
      + rewrite Hv. cbn [seq map fold_left]. rewrite Nat.mul_0_l, Nat.add_0_r. f_equal.
        rewrite <- seq_shift, map_map. apply map_ext. intros k. cbv zeta.
        replace (i + c_batch c + k * c_batch c) with (i + S k * c_batch c) by (cbn [Nat.mul]; lia). reflexivity.
    - injection H as <- <-. exists 0. cbn. split; [reflexivity|]. split; [lia|]. auto.
  Qed.

  Lemma ceil_div m : sf_num f <= m * c_batch c -> (m = 0 \/ (m - 1) * c_batch c < sf_num f) ->
    m = (sf_num f + c_batch c - 1) / c_batch c.
  Proof.
    intros H1 H2. destruct H2 as [->|H2]; [cbn in H1; lia|].
    destruct m as [|m]; [cbn in H1; lia|]. replace (S m - 1) with m in H2 by lia.
    apply Nat.div_unique with (r := sf_num f + c_batch c - 1 - c_batch c * S m); nia.
  Qed.

  Lemma exact_loop_value fuel shuf x tr v tr' :
    exact_loop c f fuel shuf x 0 n0 tr = Some (v, tr') ->
    v = full_objective f (c_batch c) shuf x /\
    exists m, tr' = rev (ex_events x shuf m 0) ++ tr.
  Proof.
    intros H. apply exact_loop_spec in H as (m & Etr & H1 & H2 & Hv). split; [|eauto].
    cbn [Nat.add] in *. pose proof (ceil_div m H1 H2) as Em. rewrite Hv. unfold full_objective, batch_starts.
    rewrite map_map, <- Em. reflexivity.
  Qed.

  Lemma exact_loop_term : forall fuel shuf x i acc tr, sf_num f < fuel + i ->
    exists v tr', exact_loop c f fuel shuf x i acc tr = Some (v, tr').
  Proof.
    induction fuel as [|fuel IH]; intros shuf x i acc tr Hf; cbn [exact_loop];
      destruct (Nat.ltb_spec i (sf_num f)); try lia; try (eexists; eexists; reflexivity).
    apply IH. lia.
  Qed.

  (* extra events at the end that change nothing *)
  Lemma ex_visited x shuf : forall m i k, visited k (ex_events x shuf m i) = [].
  Proof. induction m; intros; cbn; auto. Qed.
  Lemma ex_pass x shuf : forall m i a, pass_sums a (ex_events x shuf m i) = [].
  Proof. induction m; intros; cbn; auto. Qed.
  Lemma ex_since x shuf : forall m i a, since a (ex_events x shuf m i) = a.
  Proof. induction m; intros; cbn; auto. Qed.
  Lemma ex_shuf x shuf : forall m i, count_shuffles (ex_events x shuf m i) = 0.
  Proof. induction m; intros; cbn; auto. Qed.
  Lemma ex_quiet x shuf : forall m i h, quiet h -> quiet (rev (ex_events x shuf m i) ++ h).
  Proof.
    induction m as [|m IH]; intros i h Hq; [exact Hq|]. cbn [ex_events rev]. rewrite <- app_assoc. apply IH.
    apply quiet_cons; [exact Hq|reflexivity|discriminate].
  Qed.
  Lemma ex_flag x shuf : forall m i h t, flag t h -> flag t (rev (ex_events x shuf m i) ++ h).
  Proof.
    induction m as [|m IH]; intros i h t Hq; [exact Hq|]. cbn [ex_events rev]. rewrite <- app_assoc. apply IH.
    apply flag_other; [exact Hq|reflexivity].
  Qed.
  Lemma ex_mv x shuf : forall m i h y u d s, MV h y u d s -> MV (rev (ex_events x shuf m i) ++ h) y u d s.
  Proof.
    induction m as [|m IH]; intros i h y u d s Hq; [exact Hq|]. cbn [ex_events rev]. rewrite <- app_assoc. apply IH.
    apply mv_other; [exact Hq|exact I].
  Qed.
  Lemma ex_batch x shuf : forall m i, Forall batch_ok (ex_events x shuf m i).
  Proof. induction m; intros; cbn; constructor; [exact I|auto]. Qed.
  Lemma runs_app p tr q tr' r : RUNS p tr q -> RUNS q tr' r -> RUNS p (tr ++ tr') r.
  Proof. intros H. revert r. induction H; intros; cbn; [assumption|]. econstructor; eauto. Qed.
  Lemma ex_runs x shuf : c_exact c = true -> forall m i,
    RUNS (PFinal x) (ex_events x shuf m i ++ [EndOpt x]) PDone.
  Proof.
    intros He. induction m as [|m IH]; intros i; cbn.
    - repeat econstructor.
    - econstructor; [apply p_exact''; exact He|apply IH].
  Qed.
  Lemma ex_runs' x shuf e acc : c_exact c = true -> forall m i,
    RUNS (PReady x e acc) (ex_events x shuf m i ++ [EndOpt x]) PDone /\
    RUNS (PStepped x e acc) (ex_events x shuf m i ++ [EndOpt x]) PDone.
  Proof.
    intros He [|m] i; cbn.
    - split; repeat econstructor.
    - split; (econstructor; [first [apply p_exact; exact He|apply p_exact'; exact He]|apply ex_runs; exact He]).
  Qed.

  (** ** Everything about a normal return *)
  Record Fin (r : res) : Prop := {
    f_vis : visited 0 (r_trace r) = sched (visits (r_trace r));
    f_max : visits (r_trace r) <= actual_max c;
    f_runs : RUNS PStart (r_trace r) PDone;
    f_quiet : quiet (rev (r_trace r));
    f_mv : MV (rev (r_trace r)) (r_x r) (r_u r) (r_d r) (r_step r);
    f_batch : Forall batch_ok (r_trace r);
    f_why : (stops_at (c_tol c) nmax (pass_sums n0 (r_trace r)) /\ since [] (r_trace r) = [] /\
             exists ps, pass_sums n0 (r_trace r) = ps ++ [r_val r])
         \/ (never_converged (c_tol c) nmax (pass_sums n0 (r_trace r)) /\
             (visits (r_trace r) = actual_max c \/ stop_requested cb (r_trace r)) /\
             (if c_exact c
              then r_val r = full_objective f (c_batch c) (count_shuffles (r_trace r)) (r_x r)
              else (since [] (r_trace r) <> [] /\ r_val r = sum (since [] (r_trace r)))
                   \/ (since [] (r_trace r) = [] /\ visits (r_trace r) = actual_max c /\
                       exists ps, pass_sums n0 (r_trace r) = ps ++ [r_val r])
                   \/ (since [] (r_trace r) = [] /\ visits (r_trace r) < actual_max c /\
                       stop_requested cb (r_trace r) /\ r_val r = n0)))
  }.

  Lemma sched_length k : length (sched k) = k.
  Proof. unfold sched. rewrite map_length, seq_length. reflexivity. Qed.

  Lemma fin_all fuel r :
    optimize_with c f cb fuel u0 d0 st0 x0 = Return r -> Fin r.
  Proof.
    unfold optimize_with. destruct (loop _ _ _) as [s|e] eqn:El; [discriminate|].
    pose proof (loop_ok _ _ El) as K. destruct e as [s|s|]; [| |discriminate].
    - destruct K as [Hinv Hexit].
      assert (Main : forall v tr m shuf, tr = rev (ex_events (s_x s) shuf m 0) ++ s_tr s ->
         (m = 0 \/ c_exact c = true) ->
         (if c_exact c then v = full_objective f (c_batch c) (s_shuf s) (s_x s) else v = s_overall s) ->
         Fin (finish s v tr)).
      { intros v tr m shuf -> Hm Hv.
        assert (Tr : r_trace (finish s v (rev (ex_events (s_x s) shuf m 0) ++ s_tr s))
                     = chron s ++ ex_events (s_x s) shuf m 0 ++ [EndOpt (s_x s)]).
        { cbn. rewrite rev_app_distr, rev_involutive, app_assoc. reflexivity. }
        assert (V : visited 0 (chron s ++ ex_events (s_x s) shuf m 0 ++ [EndOpt (s_x s)]) = sched (s_i s)).
        { rewrite !visited_app, ex_visited. cbn. rewrite app_nil_r. apply (i_vis _ Hinv). }
        assert (P : pass_sums n0 (chron s ++ ex_events (s_x s) shuf m 0 ++ [EndOpt (s_x s)]) = pass_sums n0 (chron s)).
        { rewrite !pass_sums_app, ex_pass. cbn. rewrite app_nil_r. reflexivity. }
        assert (Si : since [] (chron s ++ ex_events (s_x s) shuf m 0 ++ [EndOpt (s_x s)]) = since [] (chron s)).
        { rewrite !since_app, ex_since. reflexivity. }
        assert (Cs : count_shuffles (chron s ++ ex_events (s_x s) shuf m 0 ++ [EndOpt (s_x s)]) = s_shuf s).
        { rewrite !count_shuffles_app, ex_shuf, count_shuffles_rev. cbn. rewrite (i_shuf _ Hinv). lia. }
        assert (Rv : rev (chron s ++ ex_events (s_x s) shuf m 0 ++ [EndOpt (s_x s)])
                     = EndOpt (s_x s) :: rev (ex_events (s_x s) shuf m 0) ++ s_tr s).
        { rewrite !rev_app_distr, rev_involutive. reflexivity. }
        assert (Vs : visits (chron s ++ ex_events (s_x s) shuf m 0 ++ [EndOpt (s_x s)]) = s_i s).
        { unfold visits. rewrite V. apply sched_length. }
        assert (Sr : s_term s = true -> stop_requested cb (chron s ++ ex_events (s_x s) shuf m 0 ++ [EndOpt (s_x s)])).
        { intros Ht. pose proof (i_flag _ Hinv) as F. rewrite Ht in F.
          rewrite <- (rev_involutive (_ ++ _ ++ _)), Rv. apply stopped_requested.
          apply stopped_cons. apply (ex_flag _ _ _ _ _ true). exact F. }
        constructor; rewrite ?Tr, ?Rv, ?V, ?P, ?Si, ?Cs, ?Vs; cbn [finish r_val r_x r_u r_d r_step].
        - reflexivity.
        - apply (i_i _ Hinv).
        - destruct (i_runs _ Hinv) as [acc [_ Hr]].
          destruct Hm as [->|He].
          + cbn [ex_events app]. destruct Hr as [Hr|Hr]; (eapply runs_snoc; [exact Hr|constructor]).
          + destruct (ex_runs' (s_x s) shuf (s_epoch s) acc He m 0) as [R1 R2].
            destruct Hr as [Hr|Hr]; (eapply runs_app; [exact Hr|eassumption]).
        - apply quiet_cons; [|reflexivity|discriminate]. apply ex_quiet. apply (i_quiet _ Hinv).
        - apply mv_other; [|exact I]. apply ex_mv. apply (i_mv _ Hinv).
        - apply Forall_app. split; [apply Forall_rev, (i_batch _ Hinv)|].
          apply Forall_app. split; [apply ex_batch|]. constructor; [exact I|constructor].
        - right. split; [apply (i_never _ Hinv)|]. split.
          { destruct Hexit as [E|E]; [left; exact E|right; auto]. }
          destruct (c_exact c); [exact Hv|].
          subst v. destruct (Nat.eq_dec (s_i s) (actual_max c)) as [Ei|Ei].
          + destruct (i_full _ Hinv Ei) as [[A B]|[A B]].
            * left. split; [exact A|]. rewrite B. apply accum_since0.
            * right; left. auto.
          + destruct Hexit as [E|E]; [contradiction|].
            assert (Hlt : s_i s < actual_max c) by (pose proof (i_i _ Hinv); lia).
            destruct (i_go _ Hinv Hlt) as [_ [_ [Eo _]]].
            rewrite accum_since0 in Eo.
            destruct (since [] (chron s)) as [|a l] eqn:Es.
            * right; right. split; [reflexivity|]. split; [exact Hlt|]. split; [auto|]. exact Eo.
            * left. split; [discriminate|exact Eo]. }
      destruct (c_exact c) eqn:Ec.
      + destruct (exact_loop _ _ _ _ _ _ _ _) as [[v tr]|] eqn:Ex; [|discriminate].
        apply exact_loop_value in Ex as [Hv [m Etr]].
        intros H; injection H as <-. eapply Main; eauto.
      + intros H; injection H as <-. apply (Main (s_overall s) (s_tr s) 0 0); auto.
    - intros H; injection H as <-. destruct K as [V Hi R Si P St Q M Bs].
      assert (Tr : r_trace (finish s (s_overall s) (s_tr s)) = chron s ++ [EndOpt (s_x s)]) by reflexivity.
      assert (V' : visited 0 (chron s ++ [EndOpt (s_x s)]) = sched (s_i s)).
      { rewrite !visited_app. cbn. rewrite app_nil_r. exact V. }
      assert (P' : pass_sums n0 (chron s ++ [EndOpt (s_x s)]) = pass_sums n0 (chron s)).
      { rewrite !pass_sums_app. cbn. rewrite app_nil_r. reflexivity. }
      assert (Si' : since [] (chron s ++ [EndOpt (s_x s)]) = since [] (chron s)).
      { rewrite !since_app. reflexivity. }
      assert (Rv : rev (chron s ++ [EndOpt (s_x s)]) = EndOpt (s_x s) :: s_tr s).
      { rewrite rev_app_distr, rev_involutive. reflexivity. }
      assert (Vs : visits (chron s ++ [EndOpt (s_x s)]) = s_i s).
      { unfold visits. rewrite V'. apply sched_length. }
      constructor; rewrite ?Tr, ?Rv, ?V', ?P', ?Si', ?Vs; cbn [finish r_val r_x r_u r_d r_step]; auto.
      + destruct R as (e & acc & R). eapply runs_snoc; [exact R|constructor].
      + apply quiet_cons; [exact Q|reflexivity|discriminate].
      + apply mv_other; [exact M|exact I].
      + apply Forall_app. split; [apply Forall_rev, Bs|]. constructor; [exact I|constructor].
  Qed.

  Lemma terminates_all fuel : actual_max c < fuel -> sf_num f < fuel ->
    exists r, optimize_with c f cb fuel u0 d0 st0 x0 = Return r.
  Proof.
    intros H1 H2. unfold optimize_with. destruct (loop_term fuel H1) as [e El]. rewrite El.
    pose proof (loop_ok _ _ El) as K. destruct e as [s|s|]; [|eauto|contradiction].
    destruct (c_exact c); [|eauto].
    destruct (exact_loop_term fuel (s_shuf s) (s_x s) 0 n0 (s_tr s)) as (v & tr & ->); [lia|]. eauto.
  Qed.
  End Run.
End P.
