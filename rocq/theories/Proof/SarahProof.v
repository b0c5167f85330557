(** SARAH (Model/Sarah.v). *)
From Coq Require Import List Arith Bool Lia.
From Verif.Base Require Import Num Vec Size Loop.
From Verif.Model Require Import Common VarRed SVRG Sarah.
From Verif.Spec Require Import SgdSpec VarRedSpec SarahSpec.
From Verif.Proof Require Import VarRedProof SVRGProof.
Import ListNotations.

Section Sarah.
  Context {N : Num}.
  Variable f : VFun N.
  Variable cb : VCB N.
  Variables (b maxIterations : nat) (tol : N) (shuffle exact : bool) (eta : N).
  Variable norm : list N -> N.
  Variable early : list N -> N -> bool.
  Hypothesis Hb : 0 < b.
  Hypothesis Hn : 0 < vf_num f.
  Notation n := (vf_num f).
  Notation trace := (list (vev N)).
  Notation Inv := (Inv f cb b).
  Notation askb := (askb cb).
  Notation steps := (sarah_steps eta early).
  Notation events := (sarah_events eta).

  (** the point before the last step, if there is one *)
  Definition prev_of (p : option (list N)) (l : list (@sstep N)) : option (list N) :=
    fold_left (fun _ s => Some (t_x (m_t s))) l p.
  Definition v_of (v : list N) (l : list (@sstep N)) : list N := fold_left (fun _ s => m_v s) l v.
  Definition x_of (x : list N) (l : list (@sstep N)) : list N := last (map (fun s => t_to (m_t s)) l) x.

  Lemma x_of_cons x s l : x_of x (s :: l) = x_of (t_to (m_t s)) l.
  Proof.
    unfold x_of. cbn [map]. apply last_step'.
  Qed.

  Lemma steps_snoc vN p x v l s : steps vN p x v l -> Forall (fun s => m_told s = true) l ->
    t_x (m_t s) = x_of x l -> (prev_of p l = None -> t_h' (m_t s) = t_g' (m_t s)) ->
    m_v s = vadd (v_of v l) (over_n (t_c (m_t s)) (vsub (t_g' (m_t s)) (t_h' (m_t s)))) ->
    t_to (m_t s) = vsub (t_x (m_t s)) (vscale eta (m_v s)) -> m_told s = negb (early (m_v s) vN) ->
    steps vN p x v (l ++ [s]).
  Proof.
    revert p x v. induction l as [|a l IH]; intros p x v H T E1 E2 E3 E4 E5; cbn [app SarahSpec.sarah_steps] in *.
    - cbn in E1, E2, E3. rewrite <- E1. sp; auto.
    - destruct H as (A1 & A2 & A3 & A4 & A5 & A6 & A7). inversion T as [|? ? T1 T2]; subst. sp; auto.
      + congruence.
      + apply IH; auto. rewrite x_of_cons in E1. exact E1.
  Qed.
  Lemma events_snoc p l s : events p (l ++ [s]) = events p l ++
    (if t_sh (m_t s) then [VShuffle] else []) ++ [VGrad (t_x (m_t s)) (t_f (m_t s)) (t_c (m_t s)) (t_g (m_t s)) (t_g' (m_t s))] ++
    (match prev_of p l with None => [] | Some q => [VGrad q (t_f (m_t s)) (t_c (m_t s)) (t_h (m_t s)) (t_h' (m_t s))] end) ++
    (if m_told s then [VStep (t_to (m_t s)) eta] else []).
  Proof.
    revert p. induction l as [|a l IH]; intros p; cbn [app SarahSpec.sarah_events prev_of fold_left].
    - rewrite app_nil_r. reflexivity.
    - fold (prev_of (Some (t_x (m_t a))) l). rewrite IH. do 4 (rewrite <- ?app_assoc; cbn [app]). reflexivity.
  Qed.
  Lemma prev_snoc p l s : prev_of p (l ++ [s]) = Some (t_x (m_t s)).
  Proof. unfold prev_of. rewrite fold_left_app. reflexivity. Qed.
  Lemma prev_none l : prev_of None l = None <-> l = [].
  Proof.
    split; [|intros ->; reflexivity]. destruct l as [|a l]; [reflexivity|]. cbn.
    assert (H : forall x k, fold_left (fun _ s => Some (t_x (m_t s))) k (Some x) <> @None (list N)) by
      (intros x k; revert x; induction k as [|c k IH]; intros x; cbn; [discriminate|apply IH]).
    intros E. exfalso. exact (H _ _ E).
  Qed.

  Definition QP (inner : nat) (vN : N) (x1 v0 : list N) (tr0 : trace) (s : @qst N) : Prop :=
    exists l, q_tr s = rev (events None l) ++ tr0 /\ steps vN None x1 v0 l /\ Forall (fun s => m_told s = true) l /\
      cyclic n b shuffle (map m_t l) /\ q_f s = list_sum (map t_c (map m_t l)) /\ q_cur s <= n /\ q_cur s mod n = q_f s mod n /\
      q_x s = x_of x1 l /\ q_v s = v_of v0 l /\ (forall q, prev_of None l = Some q -> q_x0 s = q) /\
      within inner (map m_t l) /\ Inv (q_tr s) /\ q_term s = askb (q_tr s).
  Definition QQ (inner : nat) (vN : N) (x1 v0 : list N) (tr0 : trace) (o : option (@qst N)) : Prop :=
    exists s l rest, o = Some s /\ q_tr s = rev (events None l ++ rest) ++ tr0 /\ steps vN None x1 v0 l /\
      cyclic n b shuffle (map m_t l) /\ q_x s = x_of x1 l /\ within inner (map m_t l) /\
      (rest = [] -> inner <= list_sum (map t_c (map m_t l)) \/ ended_early l) /\ forallb abandoned rest = true /\
      (rest <> [] -> q_term s = true) /\ Inv (q_tr s) /\ q_term s = askb (q_tr s).

  Lemma sum_pos (l : list (@sstep N)) : Forall (fun t : @vstep N => 0 < t_c t) (map m_t l) -> (0 <? list_sum (map t_c (map m_t l))) = negb (match l with [] => true | _ => false end).
  Proof.
    destruct l as [|a l]; intros H; [reflexivity|]. inversion H; subst. cbn [map negb].
    apply Nat.ltb_lt. unfold list_sum. cbn [fold_right]. lia.
  Qed.

  Lemma qbody_ok inner vN x1 v0 tr0 s : QP inner vN x1 v0 tr0 s ->
    match qbody f cb b shuffle eta early inner vN s with inl s' => QP inner vN x1 v0 tr0 s' | inr o => QQ inner vN x1 v0 tr0 o end.
  Proof.
    intros (l & Et & Es & Tl & Ec & Ef & L & M & Ex & Ev & Ep & W & I & A). unfold qbody.
    destruct (Nat.ltb_spec (q_f s) inner) as [F|F]; cbn [negb].
    2:{ exists s, l, []. rewrite app_nil_r. refine (conj eq_refl _). sp; auto; try discriminate; try congruence. intros _. left. lia. }
    destruct (Nat.eqb_spec n 0) as [Z|_]; [lia|].
    pose proof (next_cyclic f b Hb (q_cur s) (q_f s) L Hn M) as Q. cbv zeta in Q.
    set (cur := if q_cur s mod n =? 0 then 0 else q_cur s) in *.
    set (sh := (shuffle && (cur =? 0))).
    assert (E : (if q_cur s mod n =? 0 then (0, if shuffle then VShuffle :: q_tr s else q_tr s) else (q_cur s, q_tr s)) =
                (cur, (if sh then [VShuffle] else []) ++ q_tr s)).
    { unfold sh, cur. destruct (Nat.eqb_spec (q_cur s mod n) 0) as [Z|Z]; cbn [Nat.eqb].
      - rewrite andb_true_r. destruct shuffle; reflexivity.
      - replace (q_cur s =? 0) with false; [rewrite andb_false_r; reflexivity|].
        symmetry. apply Nat.eqb_neq. intros Y. rewrite Y, Nat.mod_0_l in Z; lia. }
    rewrite E. clear E. set (tr1 := (if sh then [VShuffle] else []) ++ q_tr s). set (c := Nat.min b (n - cur)) in *.
    destruct Q as (C1 & C2 & C3 & C4).
    assert (I1 : Inv tr1) by (unfold tr1; destruct sh; cbn; repeat split; auto; discriminate).
    assert (A1 : q_term s = askb tr1) by (unfold tr1; destruct sh; cbn; auto).
    destruct (grad_at f cb (q_x s) cur c (q_term s) tr1) as [[[g g'] t2] tr2] eqn:G1.
    apply (grad_at_ok f cb b Hb) in G1; [|lia|lia]. destruct G1 as (-> & I2 & A2). specialize (I2 I1). specialize (A2 A1).
    set (second := match prev_of None l with None => [] | Some q => [q] end).
    set (tr2 := VGrad (q_x s) cur c g g' :: tr1) in *.
    assert (G2 : exists h h' t3,
      (if 0 <? q_f s then grad_at f cb (q_x0 s) cur c t2 tr2 else (g', g', t2, tr2)) =
      (h, h', t3, rev (match prev_of None l with None => [] | Some q => [VGrad q cur c h h'] end) ++ tr2) /\
      (prev_of None l = None -> h' = g') /\
      Inv (rev (match prev_of None l with None => [] | Some q => [VGrad q cur c h h'] end) ++ tr2) /\
      t3 = askb (rev (match prev_of None l with None => [] | Some q => [VGrad q cur c h h'] end) ++ tr2)).
    { rewrite Ef, sum_pos.
      2:{ destruct Ec as (_ & Ec). eapply Forall_impl; [|exact Ec]. cbn. tauto. }
      destruct l as [|a l].
      - cbn [negb prev_of fold_left rev app]. exists g', g', t2. sp; auto.
      - cbn [negb]. destruct (prev_of None (a :: l)) as [q|] eqn:P; [|apply prev_none in P; discriminate].
        specialize (Ep q eq_refl). rewrite Ep.
        destruct (grad_at f cb q cur c t2 tr2) as [[[h h'] t3] tr3] eqn:G2.
        apply (grad_at_ok f cb b Hb) in G2; [|lia|lia]. destruct G2 as (-> & I3 & A3).
        exists h, h', t3. cbn [rev app]. sp; auto. discriminate. }
    destruct G2 as (h & h' & t3 & -> & Hh & I3 & A3).
    set (tr3 := rev (match prev_of None l with None => [] | Some q => [VGrad q cur c h h'] end) ++ tr2) in *.
    destruct t3.
    - (* stopped *)
      exists {| q_x := q_x s; q_x0 := q_x s; q_v := q_v s; q_f := q_f s; q_cur := cur; q_term := true; q_tr := tr3 |}, l,
        ((if sh then [VShuffle] else []) ++ [VGrad (q_x s) cur c g g'] ++ (match prev_of None l with None => [] | Some q => [VGrad q cur c h h'] end)).
      cbn [q_tr q_x q_term]. refine (conj eq_refl _). sp; auto; try discriminate.
      + unfold tr3, tr2, tr1. rewrite !rev_app_distr, <- !app_assoc, Et. destruct sh; reflexivity.
      + destruct sh; discriminate.
      + destruct sh, (prev_of None l); reflexivity.
    - set (v := sarah_v (q_v s) g' h' c). set (x' := sarah_x (q_x s) v eta).
      set (st := {| m_t := {| t_sh := sh; t_x := q_x s; t_f := cur; t_c := c; t_g := g; t_g' := g'; t_h := h; t_h' := h'; t_to := x' |};
                    m_v := v; m_told := negb (early v vN) |}).
      assert (S1 : steps vN None x1 v0 (l ++ [st])).
      { apply steps_snoc; auto. cbn [st m_v m_t t_c t_g' t_h']. rewrite <- Ev. reflexivity. }
      assert (S2 : cyclic n b shuffle (map m_t (l ++ [st]))).
      { rewrite map_app. apply cyclic_snoc; auto; cbn [st m_t t_f t_c t_sh]; [rewrite <- Ef; exact C4|].
        sp; auto; lia. }
      assert (S3 : within inner (map m_t (l ++ [st]))) by (rewrite map_app; apply within_snoc; lia).
      assert (S4 : x' = x_of x1 (l ++ [st])) by (unfold x_of; rewrite map_app; cbn [map st m_t t_to]; rewrite last_app1; reflexivity).
      assert (S5 : rev (events None (l ++ [st])) ++ tr0 = rev (if negb (early v vN) then [VStep x' eta] else []) ++ tr3).
      { rewrite events_snoc. cbn [st m_t t_x t_f t_c t_g t_g' t_h t_h' t_to t_sh m_told]. unfold tr3, tr2, tr1. rewrite Et.
        rewrite !rev_app_distr, <- !app_assoc. destruct sh; reflexivity. }
      destruct (early v vN) eqn:Ee; cbn [negb] in *.
      + exists {| q_x := x'; q_x0 := q_x s; q_v := v; q_f := q_f s; q_cur := cur; q_term := false; q_tr := tr3 |}, (l ++ [st]), [].
        cbn [q_tr q_x q_term]. refine (conj eq_refl _). rewrite app_nil_r. sp; auto; try congruence.
        intros _. right. exists l, st. split; [reflexivity|]. cbn. rewrite ?Ee. reflexivity.
      + exists (l ++ [st]). cbn [q_tr q_x q_x0 q_v q_term q_f q_cur]. sp; auto.
        * apply Forall_app. split; [exact Tl|]. constructor; [|constructor]. cbn. rewrite ?Ee. reflexivity.
        * rewrite !map_app, list_sum_app. cbn. lia.
        * unfold v_of. rewrite fold_left_app. reflexivity.
        * rewrite prev_snoc. intros q [= <-]. reflexivity.
        * cbn [VarRedProof.Inv]. sp; cbn; auto.
        * cbn [VarRedProof.askb vasks andb]. rewrite <- A3. apply orb_comm.
  Qed.

  Lemma qinner_ok fuel inner vN x1 v0 tr0 term o : term = askb tr0 -> Inv tr0 ->
    loop (qbody f cb b shuffle eta early inner vN) fuel
      {| q_x := x1; q_x0 := []; q_v := v0; q_f := 0; q_cur := 0; q_term := term; q_tr := tr0 |} = inr o -> QQ inner vN x1 v0 tr0 o.
  Proof.
    intros A I. refine (loop_inv_done _ (QP inner vN x1 v0 tr0) (QQ inner vN x1 v0 tr0) (qbody_ok inner vN x1 v0 tr0) _ _ _ _).
    exists []. cbn. sp; auto using within_nil, cyclic_nil; try discriminate; lia.
  Qed.
  Lemma qinner_more fuel inner vN s : inner <= fuel + q_f s -> q_cur s <= n ->
    exists o, loop (qbody f cb b shuffle eta early inner vN) (S fuel) s = inr o.
  Proof.
    intros L C. apply (loop_terminates _ (fun s => q_cur s <= n) (fun s => inner - q_f s)); [|exact C|lia].
    clear s L C. intros s C. unfold qbody. destruct (Nat.ltb_spec (q_f s) inner) as [F|F]; cbn [negb]; [|exact Logic.I].
    destruct (Nat.eqb_spec n 0) as [Z|_]; [exact Logic.I|].
    pose proof (next_cyclic f b Hb (q_cur s) (q_cur s) C Hn eq_refl) as Q. cbv zeta in Q.
    destruct (if q_cur s mod n =? 0 then (0, if shuffle then VShuffle :: q_tr s else q_tr s) else (q_cur s, q_tr s)) as [cur tr] eqn:E.
    assert (Ecur : cur = if q_cur s mod n =? 0 then 0 else q_cur s) by (destruct (q_cur s mod n =? 0); congruence).
    rewrite <- Ecur in Q. destruct (grad_at f cb (q_x s) cur _ _ _) as [[[g g'] t2] tr2].
    destruct (if 0 <? q_f s then _ else _) as [[[h h'] t3] tr3]. destruct t3; [exact Logic.I|].
    destruct (early _ vN); [exact Logic.I|]. cbn [q_f q_cur]. lia.
  Qed.

  (** ---- outer loop ---- *)
  Variables (inner0 : nat) (x0 : list N).
  Notation inner := (inner_of f inner0).
  Notation rounds := (sarah_rounds n b inner shuffle eta norm early tol).
  Notation round_ok := (sarah_round n b inner shuffle eta norm early).
  Notation revents := (sround_events eta).

  Lemma rounds_snoc x last rs x1 last1 r : rounds x last rs x1 last1 -> Forall (fun r => y_rest r = []) rs ->
    y_x r = x1 -> round_ok r -> converged tol last1 (total (y_evals r)) = false ->
    rounds x last (rs ++ [r]) (y_end n eta r) (total (y_evals r)).
  Proof.
    revert x last. induction rs as [|a rs IH]; intros x last H F Ex R C; cbn [app sarah_rounds] in *.
    - destruct H as (-> & ->). sp; auto. intros []. reflexivity.
    - destruct H as (A1 & A2 & _ & A4 & A5). inversion F as [|? ? F1 F2]; subst. sp; auto.
  Qed.

  Definition spre (rs : list (@sround N)) : trace := VBegin x0 :: flat_map revents rs.
  Definition AP (s : @ast N) : Prop :=
    exists rs, a_tr s = rev (spre rs) /\ rounds x0 nmax rs (a_x s) (a_last s) /\
      a_over s = (match rs with [] => n0 | _ => a_last s end) /\ length rs = a_i s /\ a_i s <= smax maxIterations /\
      (a_term s = false -> Forall (fun r => y_rest r = []) rs) /\ Inv (a_tr s) /\ a_term s = askb (a_tr s).
  Definition AQ (e : @aexit N) : Prop :=
    match e with
    | ABad => False
    | AMore => True
    | AConv s => exists rs l, a_tr s = rev (spre rs ++ evs_of (a_x s) l) /\ rounds x0 nmax rs (a_x s) (a_last s) /\
        length rs < smax maxIterations /\ split_of n b (map fst l) /\ a_over s = total l /\
        converged tol (a_last s) (total l) = true /\ Inv (a_tr s)
    | ADone s => exists rs t last, u_final t = [] /\ a_tr s = rev (spre rs ++ u_events (a_x s) t) /\ rounds x0 nmax rs (a_x s) last /\
        length rs <= smax maxIterations /\
        (u_evals t = [] \/ (split_of n b (map fst (u_evals t)) /\ length rs < smax maxIterations)) /\
        (match u_grads t with None => True | Some (p, l) => split_of n b (map fst (p :: l)) /\ u_evals t <> [] end) /\
        a_over s = (match u_evals t with [] => match rs with [] => n0 | _ => last end | _ => total (u_evals t) end) /\
        (length rs = smax maxIterations \/ askb (a_tr s) = true) /\ Inv (a_tr s)
    end.

  Lemma abody_ok fuel s : AP s ->
    match abody f cb b maxIterations tol shuffle eta norm early fuel inner s with inl s' => AP s' | inr e => AQ e end.
  Proof.
    intros (rs & Et & Er & Eo & El & Lm & R & I & A). unfold abody.
    destruct ((a_i s <? smax maxIterations) && negb (a_term s)) eqn:Cnd; cbn [negb].
    2:{ exists rs, {| u_evals := []; u_grads := None; u_final := [] |}, (a_last s). cbn [u_events u_evals u_grads u_final evs_of map app].
        rewrite app_nil_r. sp; auto; [lia|].
        apply andb_false_iff in Cnd. destruct Cnd as [Cnd|Cnd].
        - apply Nat.ltb_ge in Cnd. left. lia.
        - right. apply negb_false_iff in Cnd. congruence. }
    apply andb_prop in Cnd. destruct Cnd as (C1 & C2). apply Nat.ltb_lt in C1. apply negb_true_iff in C2.
    destruct eval_pass as [[[over term] tr]|] eqn:P; [|exact Logic.I].
    apply (eval_pass_ok f cb b Hb) in P. destruct P as (l & -> & S & V & I1 & A1). specialize (I1 I). specialize (A1 A).
    assert (Sp : split_of n b (map fst l)) by (destruct S as (S1 & S2); rewrite Nat.sub_0_r in S1; split; assumption).
    assert (Ne : l <> []) by (intros ->; apply (split_nonempty f b Hb Hn _ Sp); reflexivity).
    destruct (nisnan over || nisinf over || nlt (nabs (nsub (a_last s) over)) tol) eqn:Cv.
    { exists rs, l. cbn [a_tr a_x a_over a_last]. sp; auto; try lia.
      - rewrite rev_app_distr, Et. reflexivity.
      - unfold converged. change (total l) with (fold_left nadd (map snd l) n0). rewrite <- V. exact Cv. }
    destruct full_gradient as [[[full term2] tr2]|] eqn:G; [|exact Logic.I].
    apply (full_gradient_ok f cb b Hb) in G; [|exact Hn]. destruct G as (p & gs & -> & S2 & Efull & I2 & A2).
    specialize (I2 I1). specialize (A2 A1). cbn [grs_mode used] in *.
    change (map (fun p => VGradQ (a_x s) (fst (fst p)) (snd (fst p)) (fst (snd p))) gs) with (grq_of (a_x s) gs) in *.
    assert (Tr : rev (grs_of (a_x s) [p] ++ grq_of (a_x s) gs) ++ rev (evs_of (a_x s) l) ++ a_tr s =
                 rev (spre rs ++ evs_of (a_x s) l ++ grs_of (a_x s) [p] ++ grq_of (a_x s) gs)).
    { rewrite !rev_app_distr, Et, <- !app_assoc. reflexivity. }
    rewrite Tr in *. clear Tr.
    destruct term2.
    { exists rs, {| u_evals := l; u_grads := Some (p, gs); u_final := [] |}, (a_last s). cbn [a_tr a_x a_over u_evals u_grads u_final]. sp; auto; try lia.
      - right. split; [exact Sp|lia].
      - destruct l; [congruence|]. exact V. }
    set (tr2 := rev (spre rs ++ evs_of (a_x s) l ++ grs_of (a_x s) [p] ++ grq_of (a_x s) gs)) in *.
    destruct (loop _ fuel _) as [t|o] eqn:Lp; [exact Logic.I|].
    apply qinner_ok in Lp; [|exact A2|exact I2].
    destruct Lp as (t & st & rest & -> & Tt & Ss & Cy & Ex & W & Z & Ab & Rt & I3 & A3).
    set (r := {| y_x := a_x s; y_evals := l; y_first := p; y_grads := gs; y_steps := st; y_rest := rest |}).
    assert (Full : full = y_v n r) by exact Efull.
    assert (Rd : round_ok r) by (unfold sarah_round; sp; auto; unfold y_start; rewrite <- Full; exact Ss).
    assert (Enr : q_x t = y_end n eta r) by (rewrite Ex, Full; reflexivity).
    assert (Cv' : converged tol (a_last s) (total (y_evals r)) = false).
    { unfold converged. change (total (y_evals r)) with (fold_left nadd (map snd l) n0). rewrite <- V. exact Cv. }
    pose proof (rounds_snoc x0 nmax rs _ _ r Er (R C2) eq_refl Rd Cv') as Sn.
    exists (rs ++ [r]). cbn [a_tr a_x a_over a_last a_i a_term]. sp.
    - rewrite Tt. unfold spre. rewrite flat_map_app. cbn [flat_map]. rewrite app_nil_r.
      unfold tr2, spre. rewrite <- rev_app_distr. f_equal. rewrite app_comm_cons, <- !app_assoc. f_equal.
    - rewrite Enr. replace over with (total (y_evals r)) by (symmetry; exact V). exact Sn.
    - destruct (rs ++ [r]) eqn:Y; [destruct rs; discriminate|reflexivity].
    - rewrite app_length. cbn. lia.
    - lia.
    - intros T. apply Forall_app. split; [auto|]. constructor; [|constructor]. cbn.
      destruct rest; [reflexivity|]. assert (q_term t = true) by (apply Rt; discriminate). congruence.
    - exact I3.
    - exact A3.
  Qed.

  Lemma rev_spre_end rs (x : list N) l : rev (VEnd x :: rev (spre rs ++ l)) = VBegin x0 :: flat_map revents rs ++ l ++ [VEnd x].
  Proof. cbn [rev]. rewrite rev_involutive. unfold spre. rewrite <- app_assoc. reflexivity. Qed.

  Notation run fuel := (sarah f cb b maxIterations tol shuffle exact eta norm early fuel inner0 x0).
  Lemma sarah_ok fuel r : run fuel = Ret r ->
    sarah_report n b (vr_st r) shuffle eta norm early cb maxIterations tol exact x0 (vr_val r) (vr_x r) (vr_tr r) (vr_conv r) /\
    vr_st r = (match inner0 with O => n | _ => inner0 end) /\
    Forall (in_range n b) (vr_tr r) /\ computed f cb (vr_tr r) /\ honoured cb (vr_tr r).
  Proof.
    unfold sarah. destruct (loop _ fuel _) as [s|e] eqn:Lp; [discriminate|].
    assert (Q : AQ e).
    { refine (loop_inv_done _ AP AQ (abody_ok fuel) _ _ _ _ Lp). exists []. cbn. sp; auto; try discriminate. lia. }
    assert (Hlim : limit maxIterations = smax maxIterations) by (destruct maxIterations; reflexivity).
    destruct e as [s|s| |]; try discriminate; cbn [AQ] in Q.
    - destruct Q as (rs & t & last & Uf & Et & Er & Ln & El & Eg & Eo & St & I).
      destruct exact.
      + destruct (eval_pass f cb b fuel (a_x s) 0 n0 false (a_tr s)) as [[[v u] tr]|] eqn:P; [|discriminate]. intros [= <-].
        apply (eval_pass_ok f cb b Hb) in P. destruct P as (lf & -> & S & V & I1 & _). specialize (I1 I).
        assert (Sp : split_of n b (map fst lf)) by (destruct S as (S1 & S2); rewrite Nat.sub_0_r in S1; split; assumption).
        cbn [vr_val vr_x vr_tr vr_conv vr_st fst snd]. split; [|split; [reflexivity|]].
        * exists rs, {| u_evals := u_evals t; u_grads := u_grads t; u_final := lf |}, last.
          cbn [u_evals u_grads u_final]. rewrite Hlim. sp; auto.
          -- rewrite Et. replace (rev (evs_of (a_x s) lf) ++ rev (spre rs ++ u_events (a_x s) t))
               with (rev (spre rs ++ (u_events (a_x s) t ++ evs_of (a_x s) lf)))
               by (rewrite <- rev_app_distr, <- !app_assoc; reflexivity).
             refine (eq_trans (rev_spre_end rs (a_x s) _) _). rewrite <- !app_assoc. reflexivity.
          -- destruct St as [St|St]; [left; exact St|right]. apply askb_spec in St. rewrite Et, rev_involutive in St. exact St.
        * apply (Inv_end f cb b Hb). assumption.
      + intros [= <-]. cbn [vr_val vr_x vr_tr vr_conv vr_st fst snd]. split; [|split; [reflexivity|]].
        * exists rs, t, last. rewrite Hlim, Uf. sp; auto.
          -- rewrite Et. refine (eq_trans (rev_spre_end rs (a_x s) _) _). reflexivity.
          -- destruct St as [St|St]; [left; exact St|right]. apply askb_spec in St. rewrite Et, rev_involutive in St. exact St.
        * apply (Inv_end f cb b Hb). assumption.
    - destruct Q as (rs & l & Et & Er & Ln & Sp & Eo & Cv & I). intros [= <-]. cbn [vr_val vr_x vr_tr vr_conv vr_st fst snd]. split; [|split; [reflexivity|]].
      + exists rs, {| u_evals := l; u_grads := None; u_final := [] |}, (a_last s).
        cbn [u_evals u_grads u_final]. rewrite Hlim. sp; auto; try lia.
        rewrite Et. refine (eq_trans (rev_spre_end rs (a_x s) _) _). unfold u_events. cbn [u_evals u_grads u_final evs_of map]. rewrite !app_nil_r. reflexivity.
      + apply (Inv_end f cb b Hb). assumption.
  Qed.

  Lemma sarah_returns fuel : limit maxIterations < fuel -> n <= fuel -> inner < fuel -> exists r, run fuel = Ret r.
  Proof.
    intros L1 L2 L3. unfold sarah.
    assert (Hlim : limit maxIterations = smax maxIterations) by (destruct maxIterations; reflexivity). rewrite Hlim in L1.
    set (s0 := {| a_x := x0; a_last := nmax; a_over := n0; a_term := false; a_i := 0; a_tr := [VBegin x0] |}).
    assert (P0 : AP s0) by (exists []; cbn; sp; auto; try discriminate; lia).
    destruct (loop_terminates (abody f cb b maxIterations tol shuffle eta norm early fuel inner) AP (fun s => smax maxIterations - a_i s)) with (fuel := fuel) (s := s0) as (e & He).
    - intros s Hs. pose proof (abody_ok fuel s Hs) as B. unfold abody in *.
      destruct ((a_i s <? smax maxIterations) && negb (a_term s)) eqn:Cnd; cbn [negb] in *; [|exact Logic.I].
      apply andb_prop in Cnd. destruct Cnd as (C1 & _). apply Nat.ltb_lt in C1.
      destruct eval_pass as [[[over term] tr]|]; [|exact Logic.I].
      destruct (nisnan over || nisinf over || nlt (nabs (nsub (a_last s) over)) tol); [exact Logic.I|].
      destruct full_gradient as [[[full term2] tr2]|]; [|exact Logic.I]. destruct term2; [exact Logic.I|].
      destruct (loop _ fuel _) as [t|[t|]]; try exact Logic.I. split; [exact B|]. cbn [a_i]. lia.
    - exact P0.
    - cbn [a_i s0]. lia.
    - rewrite He.
      assert (Q : AQ e /\ e <> AMore).
      { refine (loop_inv_done _ AP (fun e => AQ e /\ e <> AMore) _ _ _ _ P0 He).
        intros s Hs. pose proof (abody_ok fuel s Hs) as B. unfold abody in *.
        destruct ((a_i s <? smax maxIterations) && negb (a_term s)); cbn [negb] in *; [|split; [exact B|discriminate]].
        destruct (eval_pass_more f cb b Hb fuel (a_x s) 0 n0 (a_term s) (a_tr s)) as [[[over term] tr] E1]; [lia|]. rewrite E1 in *.
        destruct (nisnan over || nisinf over || nlt (nabs (nsub (a_last s) over)) tol); [split; [exact B|discriminate]|].
        destruct (full_gradient_more f cb b Hb Quiet fuel (a_x s) (a_x s) term tr) as [[[full term2] tr2] E2]; [exact L2|]. rewrite E2 in *.
        destruct term2; [split; [exact B|discriminate]|].
        destruct fuel as [|fl]; [lia|].
        match goal with |- context [loop (qbody _ _ _ _ _ _ _ ?vN) _ ?st] =>
          destruct (qinner_more fl inner vN st) as (o & Eo); [cbn [q_f]; lia|cbn [q_cur]; lia|]; rewrite Eo in * end.
        destruct o as [t|]; [|split; [exact B|discriminate]]. exact B. }
      destruct Q as (Q & NM). destruct e as [s|s| |]; try congruence; [|eauto|destruct Q].
      destruct exact; [|eauto].
      destruct (eval_pass_more f cb b Hb fuel (a_x s) 0 n0 false (a_tr s)) as [[[v u] tr] ->]; [lia|]. eauto.
  Qed.
End Sarah.
