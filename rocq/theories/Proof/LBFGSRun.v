From Coq Require Import List Arith Bool ZArith Lia.
From Verif.Base Require Import Num Vec.
From Verif.Model Require Import Common SA LBFGS.
From Verif.Spec Require Import CommonSpec LBFGSSpec HeardSpec.
From Verif.Proof Require Import SAProof DEProof LBFGSProof LineSearchProof.
Import ListNotations.

Section Run.
  Context {N : Num} (O : OrdLaws N).
  Notation vec := (list N).
  Notation ev := (ev N vec vec).
  Variables (numBasis maxIterations : nat) (armijo minGradientNorm wolfe factr minStep maxStep : N) (maxTrials : nat).
  Variables (tol : N) (norm2 normF : vec -> N) (f : vec -> N * vec) (cb : CB N vec vec).
  Hypothesis NB : 0 < numBasis.
  Notation loop := (lb_loop numBasis maxIterations armijo minGradientNorm wolfe factr minStep maxStep maxTrials
                      tol norm2 normF f cb).
  Notation follows := (follows numBasis armijo minGradientNorm wolfe factr minStep maxStep maxTrials tol norm2 normF f).
  Notation legal := (legal numBasis armijo minGradientNorm wolfe factr minStep maxStep maxTrials tol norm2 normF f).
  Notation ends := (ends numBasis maxIterations armijo minGradientNorm wolfe factr minStep maxStep maxTrials tol norm2 normF f).

  Lemma pairs_snoc : forall (ps : list (@point N)) p q, pairs_of ((ps ++ [p]) ++ [q]) =
    pairs_of (ps ++ [p]) ++ [(vsub (p_x q) (p_x p), vsub (p_g q) (p_g p))].
  Proof.
    induction ps as [|a ps IH]; intros p q; [reflexivity|].
    specialize (IH p q). destruct ps as [|b ps]; cbn in *; [reflexivity|]. f_equal. exact IH.
  Qed.
  Lemma pairs_length : forall (ps : list (@point N)) p, length (pairs_of (ps ++ [p])) = length ps.
  Proof.
    induction ps as [|a ps IH]; intros p; [reflexivity|]. specialize (IH p).
    destruct ps as [|b ps]; cbn in *; [reflexivity|]. rewrite IH. reflexivity.
  Qed.

  Variables (x0 : vec) (term0 : bool).
  Definition first_event : ev := EvG x0 (fst (f x0)) (snd (f x0)) (cs_grad cb [] x0 (fst (f x0)) (snd (f x0))).
  Definition start : @point N :=
    {| p_x := x0; p_v := fst (f x0); p_g := cs_grad cb [] x0 (fst (f x0)) (snd (f x0)) |}.

  Definition plain (e : ev) : bool := negb (is_begin e || is_end e).

  Record Inv (before : list point) (cur : point) (s y : list vec) (term : bool) (tr : list ev) : Prop := {
    iv_hd : hd_error (before ++ [cur]) = Some start;
    iv_legal : legal (before ++ [cur]);
    iv_ring : ring_ok numBasis (pairs_of (before ++ [cur])) s y;
    iv_limit : maxIterations <> 0 -> length before <= maxIterations;
    iv_steps : steps_to (rev tr) = map p_x (tl (before ++ [cur]));
    iv_trace : exists body, rev tr = first_event :: Begin x0 :: body /\ forallb plain body = true;
    iv_evals : length (evalgs (rev tr)) <= 1 + length before * Nat.max 1 maxTrials;
    iv_term : term = true <-> term0 = true \/ asked cb (rev tr);
    iv_late : forall h e rest, asked_at cb (rev tr) h e rest -> length (steps_to (e :: rest)) <= 1;
    iv_grads : rev (step_grads tr) = map (fun p => (p_v p, p_g p)) (tl (before ++ [cur]))
  }.

  Definition Post (v : N) (x : vec) (term : bool) (out : list ev) : Prop :=
    exists before cur,
      hd_error (before ++ [cur]) = Some start /\ legal (before ++ [cur]) /\
      (maxIterations <> 0 -> length before <= maxIterations) /\
      ends (before ++ [cur]) cur (term0 = true \/ asked cb out) v x /\
      steps_to out = map p_x (tl (before ++ [cur])) /\
      (exists body, out = first_event :: Begin x0 :: body ++ [End x] /\ forallb plain body = true) /\
      length (evalgs out) <= 1 + S (length before) * Nat.max 1 maxTrials /\
      (term = true <-> term0 = true \/ asked cb out) /\
      (forall h e rest, asked_at cb out h e rest -> length (steps_to (e :: rest)) <= 1) /\
      rev (step_grads (rev out)) = map (fun p => (p_v p, p_g p)) (tl (before ++ [cur])).

  Lemma steps_app (a b : list ev) : steps_to (a ++ b) = steps_to a ++ steps_to b.
  Proof. apply flat_map_app. Qed.
  Lemma evalgs_app (a b : list ev) : evalgs (a ++ b) = evalgs a ++ evalgs b.
  Proof. apply flat_map_app. Qed.
  Lemma search_events_evalgs x d ts evs : search_events f x d ts evs ->
    length (evalgs evs) = length ts /\ steps_to evs = [] /\ forallb plain evs = true /\ forallb asks evs = true.
  Proof.
    intros S. induction S as [|t e ts evs (g & E & _) S (I1 & I2 & I3 & I4)]; [repeat split|]. subst e.
    split; [cbn; f_equal; exact I1|]. split; [exact I2|]. split; [exact I3|exact I4].
  Qed.

  Lemma step_grads_evs (tr evs : list ev) : steps_to evs = [] -> step_grads (rev evs ++ tr) = step_grads tr.
  Proof.
    intros S. assert (F : forall e, In e evs -> step_to e = []).
    { intros e IE. destruct (step_to e) as [|z zs] eqn:Z; [reflexivity|]. exfalso.
      assert (In z (steps_to evs)) by (apply in_flat_map; exists e; split; [exact IE|rewrite Z; left; reflexivity]). rewrite S in H. exact H. }
    assert (F' : forall e, In e (rev evs) -> step_to e = []) by (intros e IE; apply F, in_rev, IE).
    revert F'. generalize (rev evs). induction l as [|e l IH]; intros F'; [reflexivity|]. cbn [app step_grads].
    rewrite IH by (intros; apply F'; right; assumption). specialize (F' e (or_introl eq_refl)).
    destruct e; try reflexivity. discriminate.
  Qed.

  (** requests in a trace extended by [evs] *)
  Lemma asked_app (tr evs : list ev) : forallb asks evs = true ->
    (asked cb (rev (rev evs ++ tr)) <-> asked cb (rev tr) \/
       exists h e rest, evs = rev h ++ e :: rest /\ cs_stop cb (e :: h ++ tr) = true).
  Proof.
    intros AS. rewrite rev_app_distr, rev_involutive. split.
    - intros (h & e & rest & E & A & C).
      destruct (Nat.lt_ge_cases (length h) (length tr)) as [L|L].
      + left. destruct (nth_error (rev tr) (length h)) as [e'|] eqn:NE.
        2: { apply nth_error_None in NE. rewrite rev_length in NE. lia. }
        apply nth_error_split in NE. destruct NE as (l1 & l2 & E1 & L1).
        exists h, e, l2. split; [|auto]. rewrite E1 in E |- *. rewrite <- app_assoc in E. cbn [app] in E.
        assert (Q : l1 = rev h /\ e' :: l2 ++ evs = e :: rest).
        { revert E. generalize (e' :: l2 ++ evs), (e :: rest). assert (LL : length l1 = length (rev h)) by (rewrite rev_length; lia).
          revert LL. generalize (rev h). clear. induction l1 as [|a l1 IH]; intros [|b r] LL u v E; cbn in *; try lia.
          - auto.
          - injection E as -> E. destruct (IH r ltac:(lia) u v E) as [-> ->]. auto. }
        destruct Q as [-> Q]. injection Q as -> _. reflexivity.
      + right. assert (EX : exists m, rev h = rev tr ++ m).
        { exists (skipn (length tr) (rev h)). assert (F : firstn (length tr) (rev h) = rev tr).
          { assert (E' : firstn (length tr) (rev tr ++ evs) = firstn (length tr) (rev h ++ e :: rest)) by (rewrite E; reflexivity).
            rewrite !firstn_app in E'. rewrite !rev_length in E'. replace (length tr - length tr) with 0 in E' by lia.
            replace (length tr - length h) with 0 in E' by lia. cbn [firstn] in E'. rewrite !app_nil_r in E'.
            rewrite <- E'. rewrite <- (rev_length tr). apply firstn_all. }
          rewrite <- F. symmetry. apply firstn_skipn. }
        destruct EX as [m M]. exists (rev m), e, rest. rewrite rev_involutive.
        assert (HH : h = rev m ++ tr) by (rewrite <- (rev_involutive h), M, rev_app_distr, rev_involutive; reflexivity).
        split; [|rewrite <- HH; exact C].
        rewrite M, <- app_assoc in E. apply app_inv_head in E. exact E.
    - intros [(h & e & rest & E & A)|(h & e & rest & E & C)].
      + exists h, e, (rest ++ evs). split; [|exact A]. rewrite E, <- app_assoc. reflexivity.
      + exists (h ++ tr), e, rest. split; [|split; [|exact C]].
        * rewrite E, rev_app_distr, <- app_assoc. reflexivity.
        * rewrite E, forallb_app in AS. apply andb_true_iff in AS. destruct AS as [_ AS]. cbn in AS.
          apply andb_true_iff in AS. apply AS.
  Qed.
  Lemma late_app (tr evs : list ev) : ~ asked cb (rev tr) -> length (steps_to evs) <= 1 ->
    forall h e rest, asked_at cb (rev (rev evs ++ tr)) h e rest -> length (steps_to (e :: rest)) <= 1.
  Proof.
    intros NA L h e rest (E & A & C). rewrite rev_app_distr, rev_involutive in E.
    destruct (Nat.lt_ge_cases (length h) (length tr)) as [LT|GE].
    - exfalso. apply NA. exists h, e, (skipn (S (length h)) (rev tr)). split; [|auto].
      assert (E' : firstn (length tr) (rev tr ++ evs) = firstn (length tr) (rev h ++ e :: rest)) by (rewrite E; reflexivity).
      rewrite !firstn_app, !rev_length in E'. replace (length tr - length tr) with 0 in E' by lia.
      cbn [firstn] in E'. rewrite app_nil_r in E'.
      rewrite <- (rev_length tr) in E' at 1. rewrite firstn_all in E'.
      rewrite firstn_all2 in E' by (rewrite rev_length; lia).
      destruct (length tr - length h) as [|m] eqn:M; [lia|]. cbn [firstn] in E'.
      rewrite E'. f_equal. rewrite skipn_app. rewrite skipn_all2 by (rewrite rev_length; lia).
      rewrite rev_length. replace (S (length h) - length h) with 1 by lia. reflexivity.
    - assert (S1 : e :: rest = skipn (length h - length tr) evs).
      { assert (E' : skipn (length h) (rev tr ++ evs) = skipn (length h) (rev h ++ e :: rest)) by (rewrite E; reflexivity).
        rewrite !skipn_app, !rev_length in E'. rewrite skipn_all2 in E' by (rewrite rev_length; lia).
        rewrite (skipn_all2 (rev h)) in E' by (rewrite rev_length; lia). rewrite Nat.sub_diag in E'. symmetry. exact E'. }
      rewrite S1. rewrite <- (firstn_skipn (length h - length tr) evs), steps_app, app_length in L. lia.
  Qed.
  Lemma asked_snoc_quiet (tr : list ev) e : asks e = false -> asked cb (rev (e :: tr)) <-> asked cb (rev tr).
  Proof.
    intros Q. split.
    - intros (h & e' & rest & E & A & C). cbn [rev] in E.
      destruct (exists_last (l := e' :: rest) ltac:(discriminate)) as (r & z & Z). rewrite Z, app_assoc in E.
      apply app_inj_tail in E. destruct E as [E <-]. destruct r as [|e2 r].
      + injection Z as -> ->. congruence.
      + injection Z as -> ->. exists h, e2, r. split; [exact E|auto].
    - intros A. apply (asked_ext cb tr [e]). exact A.
  Qed.
  Lemma late_snoc (tr : list ev) e : asks e = false -> step_to e = [] ->
    (forall h e rest, asked_at cb (rev tr) h e rest -> length (steps_to (e :: rest)) <= 1) ->
    forall h e' rest, asked_at cb (rev (e :: tr)) h e' rest -> length (steps_to (e' :: rest)) <= 1.
  Proof.
    intros Q SQ L h e' rest (E & A & C). cbn [rev] in E.
    destruct (exists_last (l := e' :: rest) ltac:(discriminate)) as (r & z & Z). rewrite Z, app_assoc in E.
    apply app_inj_tail in E. destruct E as [E <-]. destruct r as [|e2 r].
    - injection Z as -> ->. congruence.
    - rewrite Z, steps_app, app_length. injection Z as -> ->.
      replace (length (steps_to [e])) with 0 by (cbn; rewrite SQ; reflexivity).
      rewrite Nat.add_0_r. apply (L h e2 r). split; [exact E|auto].
  Qed.

  Lemma ends_impl ps p (A B : Prop) v x : ends ps p A v x -> (A -> B) -> ends ps p B v x.
  Proof.
    intros E I. destruct E;
      [apply e_limit|apply e_stopped|apply e_gradient|apply e_nan|apply e_scaling|apply e_uphill
      |eapply e_nan_trial|eapply e_no_progress]; eauto.
  Qed.

  (** leaving the loop with the trace [tr] extended by the trials [evs] *)
  Lemma finish before cur s y term tr v x term' tr' :
    Inv before cur s y term tr ->
    ends (before ++ [cur]) cur (term0 = true \/ asked cb (rev tr')) v x ->
    (term' = true <-> term0 = true \/ asked cb (rev tr')) ->
    (exists evs, tr' = rev evs ++ tr /\ steps_to evs = [] /\ forallb plain evs = true /\
                 length (evalgs evs) <= Nat.max 1 maxTrials) ->
    (forall h e rest, asked_at cb (rev tr') h e rest -> length (steps_to (e :: rest)) <= 1) ->
    Post v x term' (rev (End x :: tr')).
  Proof.
    intros I E TE (evs & TR & ST & PL & LE) LA. destruct I as [I1 I2 I3 I4 I5 (body & BD & BP) I7 I8 I9 I10].
    assert (RT : rev tr' = rev tr ++ evs) by (rewrite TR, rev_app_distr, rev_involutive; reflexivity).
    exists before, cur. split; [exact I1|]. split; [exact I2|]. split; [exact I4|].
    split.
    { pose proof (asked_snoc_quiet tr' (End x) eq_refl) as AQ. apply (ends_impl _ _ _ _ _ _ E). tauto. }
    split.
    { cbn [rev]. rewrite steps_app, RT, steps_app, ST, app_nil_r, I5. cbn. apply app_nil_r. }
    split.
    { exists (body ++ evs). cbn [rev]. rewrite RT, BD. cbn [app]. rewrite <- app_assoc. split; [reflexivity|].
      rewrite forallb_app, BP, PL. reflexivity. }
    split.
    { cbn [rev]. rewrite evalgs_app, RT, evalgs_app, !app_length. cbn [evalgs flat_map evalg app length]. cbn [Nat.mul]. lia. }
    split.
    { rewrite (asked_snoc_quiet tr' (End x) eq_refl). exact TE. }
    split; [apply late_snoc; [reflexivity|reflexivity|exact LA]|].
    rewrite rev_involutive. cbn [step_grads]. rewrite TR, step_grads_evs by exact ST. exact I10.
  Qed.

  Lemma legal_snoc before cur q : legal (before ++ [cur]) -> follows (before ++ [cur]) cur q ->
    legal ((before ++ [cur]) ++ [q]).
  Proof.
    intros L F i p r EP ER. apply nth_error_snoc in ER. destruct ER as [ER|[EI <-]].
    - assert (S i < length (before ++ [cur])) by (apply nth_error_Some; congruence).
      rewrite nth_error_app1 in EP by lia. rewrite firstn_app.
      replace (S i - length (before ++ [cur])) with 0 by lia. rewrite firstn_O. rewrite app_nil_r. apply (L i p r EP ER).
    - rewrite app_length in EI. cbn [length] in EI. assert (i = length before) by lia. subst i.
      rewrite nth_error_app1 in EP by (rewrite app_length; cbn; lia). rewrite nth_error_last in EP. injection EP as <-.
      rewrite firstn_app. replace (S (length before) - length (before ++ [cur])) with 0 by (rewrite app_length; cbn [length]; lia).
      rewrite firstn_O. rewrite app_nil_r. rewrite firstn_all2 by (rewrite app_length; cbn; lia). exact F.
  Qed.

  Lemma loop_ok : forall fuel before cur s y term tr,
    Inv before cur s y term tr ->
    match loop fuel (length before) s y (p_v cur) (p_x cur) (p_g cur) term tr with
    | Ret (r, t) => Post (o_val r) (o_x r) t (o_tr r)
    | Bad => False
    | More => maxIterations <> 0 -> length before + fuel < maxIterations
    end.
  Proof.
    induction fuel as [|fuel IH]; intros before cur s y term tr I;
      cbn [lb_loop]; destruct (negb _) eqn:C.
    1, 3: unfold lb_done; cbn [o_val o_x o_tr];
      apply (finish before cur s y term tr); [exact I| |apply I|exists []; repeat split; apply Nat.le_0_l|apply I];
      rewrite negb_true_iff, andb_false_iff, orb_false_iff, !negb_false_iff in C;
      destruct C as [[C1 C2]|C];
      [apply e_limit; [apply Nat.eqb_neq, C1|rewrite app_length; cbn; apply Nat.eqb_eq in C2; lia]
      |apply e_stopped, I, C].
    - rewrite negb_false_iff, andb_true_iff, orb_true_iff, !negb_true_iff, Nat.eqb_neq in C. destruct C as [[C|C] _].
      + apply Nat.eqb_eq in C. contradiction.
      + intros M. pose proof (iv_limit _ _ _ _ _ _ I M). lia.
    - rewrite negb_false_iff, andb_true_iff, orb_true_iff, !negb_true_iff, Nat.eqb_neq in C. destruct C as [CM CT].
      assert (QUIET : forall (E : ends (before ++ [cur]) cur (term0 = true \/ asked cb (rev tr)) (p_v cur) (p_x cur)),
        match lb_done (p_v cur) (p_x cur) term tr with
        | Ret (r, t) => Post (o_val r) (o_x r) t (o_tr r)
        | Bad => False | More => maxIterations <> 0 -> length before + S fuel < maxIterations end).
      { intros E. unfold lb_done. cbn [o_val o_x o_tr].
        apply (finish before cur s y term tr); [exact I|exact E|apply I|exists []; repeat split; apply Nat.le_0_l|apply I]. }
      destruct (nlt (norm2 (p_g cur)) minGradientNorm) eqn:GN; [apply QUIET, e_gradient, GN|].
      destruct (nisnan (p_v cur)) eqn:NV; [apply QUIET, e_nan, NV|].
      pose proof (iv_ring _ _ _ _ _ _ I) as RO.
      replace (length before) with (length (pairs_of (before ++ [cur]))) by apply pairs_length.
      rewrite (choose_scaling_ok numBasis NB _ s y RO).
      fold (memory numBasis (before ++ [cur])). fold (scale_at numBasis tol normF (before ++ [cur]) (p_g cur)).
      set (ps := before ++ [cur]) in *. set (gamma := scale_at numBasis tol normF ps (p_g cur)).
      assert (PL : length (pairs_of ps) = length before) by apply pairs_length.
      destruct (neq gamma n0) eqn:GZ; [rewrite PL; apply QUIET, e_scaling; left; exact GZ|].
      unfold nfinite. rewrite negb_involutive.
      destruct (nisnan gamma || nisinf gamma)%bool eqn:GF.
      { rewrite PL. apply QUIET, e_scaling. right. apply orb_true_iff, GF. }
      rewrite (search_direction_ok numBasis NB _ s y RO). fold (memory numBasis ps).
      unfold gamma. fold (dir_at numBasis tol normF ps (p_g cur)). set (d := dir_at numBasis tol normF ps (p_g cur)).
      rewrite PL.
      destruct (line_search_ok O armijo wolfe minStep maxStep maxTrials f cb (p_v cur) (p_x cur) (p_g cur) d term tr)
        as (l & -> & H).
      assert (NA : ~ asked cb (rev tr)).
      { intros A. assert (term = true) by (apply I; right; exact A). congruence. }
      destruct H as [(OK & TS & X & V & G & TR & TE & ST & R)|(S1 & S2 & S3 & P)].
      { rewrite OK. cbn [negb]. rewrite X, V, TR, TE. apply QUIET, e_uphill. exact R. }
      destruct P as (P1 & P2 & P3 & (evs & TR & SE & TE) & P4).
      destruct (search_events_evalgs _ _ _ _ SE) as (SE1 & SE2 & SE3 & SE4).
      assert (TT : ls_term l = true <-> term0 = true \/ asked cb (rev (ls_tr l))).
      { rewrite TE, TR, (asked_app tr evs SE4). rewrite (iv_term _ _ _ _ _ _ I). tauto. }
      assert (LATE : forall h e rest, asked_at cb (rev (ls_tr l)) h e rest -> length (steps_to (e :: rest)) <= 1).
      { rewrite TR. apply late_app; [exact NA|rewrite SE2; cbn; lia]. }
      assert (FIN : forall v x, ends ps cur (term0 = true \/ asked cb (rev (ls_tr l))) v x ->
        Post v x (ls_term l) (rev (End x :: ls_tr l))).
      { intros v x E. apply (finish before cur s y term tr v x); auto.
        exists evs. split; [exact TR|]. split; [exact SE2|]. split; [exact SE3|]. rewrite SE1.
        destruct (ls_ok l); [lia|]. destruct P4 as (_ & _ & bf & t & T1 & _). rewrite T1 in P3 |- *. rewrite removelast_last.
        rewrite app_length in P3. cbn [length] in P3. lia. }
      destruct (ls_ok l) eqn:OK; cbn [negb].
      2: { destruct P4 as (X & ST & bf & t & T1 & T2 & T3 & T4 & T5). apply FIN. rewrite X. 
           apply (e_nan_trial _ _ _ _ _ _ _ _ _ _ _ _ _ _ _ _ (t_step t)).
           - rewrite T2. apply P2. rewrite T1. apply in_app_iff. right; left; reflexivity.
           - rewrite T2. exact T4. }
      destruct P4 as (NN & BS & X & bf & t & T1 & T2 & T3 & T4).
      assert (SD : searched armijo wolfe minStep maxStep maxTrials f (p_v cur) (p_x cur) (p_g cur) d (ls_trials l)
                     (ls_step l) (ls_val l) (ls_x l) (ls_g l)).
      { repeat split; auto; try apply P1; try lia. exists bf, t. auto. }
      destruct (neq (ls_step l) n0) eqn:SZ.
      { apply FIN. eapply e_no_progress; [exact SD|]. left. exact SZ. }
      destruct (nle (ndiv (nsub (p_v cur) (ls_val l)) _) factr) eqn:STB.
      { apply FIN. eapply e_no_progress; [exact SD|]. right. exact STB. }
      set (q := {| p_x := ls_x l; p_v := ls_val l; p_g := ls_g l |}).
      destruct (ring_update numBasis NB (pairs_of ps) s y (ls_x l) (p_x cur) (ls_g l) (p_g cur) RO) as (s' & y' & U & RO').
      rewrite PL in U. rewrite U.
      set (t1 := (ls_term l || cs_stop cb (St (ls_x l) :: ls_tr l))%bool).
      assert (I' : Inv (before ++ [cur]) q s' y' t1 (St (ls_x l) :: ls_tr l)).
      { assert (LP : length ps = S (length before)) by (unfold ps; rewrite app_length; cbn; lia).
        assert (RT : rev (St (ls_x l) :: ls_tr l) = rev tr ++ evs ++ [St (ls_x l)]).
        { cbn [rev]. rewrite TR, rev_app_distr, rev_involutive, <- app_assoc. reflexivity. }
        split.
        - fold ps. destruct I as [I1 _ _ _ _ _ _ _ _ _]. fold ps in I1. destruct ps; [discriminate|]. exact I1.
        - apply legal_snoc; [apply I|]. split; [exact GN|]. split; [exact NV|]. split; [exact GZ|].
          split; [exists (ls_trials l), (ls_step l); split; [exact SD|exact SZ]|].
          intros Q. unfold stable in Q. change (@larger N) with (@nmaxi N) in Q. cbn [p_v q] in Q. rewrite Q in STB. discriminate.
        - rewrite pairs_snoc. exact RO'.
        - intros M. rewrite app_length. cbn [length]. pose proof (iv_limit _ _ _ _ _ _ I M).
          destruct CM as [CM|CM]; [apply Nat.eqb_eq in CM; contradiction|]. lia.
        - rewrite RT, !steps_app, SE2, (iv_steps _ _ _ _ _ _ I). cbn [app steps_to flat_map step_to].
          fold ps. destruct ps as [|p0 ps0]; [discriminate|]. cbn [tl app]. rewrite map_app. reflexivity.
        - destruct (iv_trace _ _ _ _ _ _ I) as (body & BD & BP). exists (body ++ evs ++ [St (ls_x l)]).
          rewrite RT, BD. split; [reflexivity|]. rewrite !forallb_app, BP, SE3. reflexivity.
        - rewrite RT, !evalgs_app, !app_length, SE1. cbn [evalgs flat_map evalg length].
          pose proof (iv_evals _ _ _ _ _ _ I). cbn [length]. rewrite Nat.mul_add_distr_r. cbn [app length]. lia.
        - unfold t1. rewrite orb_true_iff, TT. rewrite TR.
          change (St (ls_x l) :: rev evs ++ tr) with (rev [St (ls_x l)] ++ (rev evs ++ tr)).
          rewrite (asked_app (rev evs ++ tr) [St (ls_x l)] eq_refl). split.
          + intros [[A|A]|A]; [auto|auto|]. right; right. exists [], (St (ls_x l)), []. split; [reflexivity|exact A].
          + intros [A|[A|(h & e & rest & E & A)]]; [auto|auto|]. right.
            destruct h as [|h0 h]; [|apply (f_equal (@length _)) in E; cbn in E; rewrite !app_length in E; cbn in E; lia].
            cbn in E. injection E as <- <-. exact A.
        - assert (TR2 : St (ls_x l) :: ls_tr l = rev (evs ++ [St (ls_x l)]) ++ tr).
          { rewrite rev_app_distr, TR. reflexivity. }
          rewrite TR2. apply late_app; [exact NA|]. rewrite steps_app, SE2. cbn. lia.
        - assert (LE : exists e evs', evs = evs' ++ [EvG (at_step (p_x cur) d (t_step t)) (t_val t) e (t_grad t)]).
          { rewrite T1 in SE. apply Forall2_app_inv_l in SE. destruct SE as (l1 & l2 & _ & F2 & ->).
            inversion F2 as [|? ? ? ? (g0 & E0 & _) F3]. inversion F3. subst. eexists; eexists; reflexivity. }
          destruct LE as (ge & evs' & LE). rewrite TR, LE, rev_app_distr. cbn [rev app step_grads].
          rewrite (step_grads_evs tr evs') by (rewrite LE, steps_app in SE2; apply app_eq_nil in SE2; apply SE2).
          rewrite (iv_grads _ _ _ _ _ _ I). fold ps. destruct ps as [|p0 ps0]; [discriminate|]. cbn [tl app]. rewrite map_app. cbn [map p_v p_g q].
          rewrite T2, T3. reflexivity. }
      pose proof (IH (before ++ [cur]) q s' y' t1 _ I') as R. cbn [p_v p_x p_g q] in R.
      rewrite app_length in R. cbn [length] in R. rewrite Nat.add_1_r in R.
      revert R. match goal with |- match ?a with _ => _ end -> _ => destruct a as [[r t2]| |] end; auto.
      intros R M. specialize (R M). lia.
  Qed.

  Theorem lbfgs_ok fuel s0 y0 : length s0 = numBasis -> length y0 = numBasis ->
    match lbfgs numBasis maxIterations armijo minGradientNorm wolfe factr minStep maxStep maxTrials
            tol norm2 normF f cb fuel term0 s0 y0 x0 with
    | Ret (r, t) => Post (o_val r) (o_x r) t (o_tr r)
    | Bad => False
    | More => maxIterations <> 0 -> fuel < maxIterations
    end.
  Proof.
    intros LS LY. unfold lbfgs. destruct (f x0) as [v g] eqn:F. cbv zeta.
    assert (I : Inv [] start s0 y0 (term0 || cs_stop cb [first_event]) [Begin x0; first_event]).
    { split.
      - reflexivity.
      - intros [|[|i]] p q E E'; discriminate.
      - apply ring_init; assumption.
      - cbn. lia.
      - reflexivity.
      - exists []. split; reflexivity.
      - cbn. lia.
      - rewrite (asked_snoc_quiet [first_event] (Begin x0) eq_refl), orb_true_iff.
        assert (A : asked cb (rev [first_event]) <-> cs_stop cb [first_event] = true); [|tauto]. split.
        + intros (h & e & rest & E & A & C). destruct h as [|h0 h]; [|apply (f_equal (@length _)) in E; cbn in E; rewrite !app_length in E; cbn in E; lia].
          cbn in E. injection E as <- <-. exact C.
        + intros C. exists [], first_event, []. split; [reflexivity|]. split; [reflexivity|exact C].
      - apply late_snoc; [reflexivity|reflexivity|]. intros h e rest (E & _).
        destruct h as [|h0 h]; [|apply (f_equal (@length _)) in E; cbn in E; rewrite !app_length in E; cbn in E; lia].
        cbn in E. injection E as <- <-. cbn. lia.
      - reflexivity. }
    pose proof (loop_ok fuel [] start s0 y0 _ _ I) as R. unfold first_event, start in R. rewrite F in R.
    cbn [fst snd length p_v p_x p_g] in R. exact R.
  Qed.
End Run.
