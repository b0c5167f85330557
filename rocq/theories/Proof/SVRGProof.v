(** SVRG (Model/SVRG.v). *)
From Coq Require Import List Arith Bool Lia.
From Verif.Base Require Import Num Vec Size Loop.
From Verif.Model Require Import Common VarRed SVRG.
From Verif.Spec Require Import SgdSpec VarRedSpec.
From Verif.Proof Require Import VarRedProof.
Import ListNotations.

Ltac sp := repeat match goal with |- _ /\ _ => split end.
Lemma last_app1 {A} (l : list A) a d : last (l ++ [a]) d = a.
Proof. induction l as [|x l IH]; [reflexivity|]. cbn. rewrite IH. destruct (l ++ [a]) eqn:E; [destruct l; discriminate|reflexivity]. Qed.
Lemma last_step' {A} : forall (l : list A) a d, last (a :: l) d = last l a.
Proof. induction l as [|x l IH]; intros a d; [reflexivity|]. change (last (a :: x :: l) d) with (last (x :: l) d). rewrite !IH. reflexivity. Qed.
Lemma snoc_inj {A} (l l' : list A) a a' : l ++ [a] = l' ++ [a'] -> l = l' /\ a = a'.
Proof. apply app_inj_tail. Qed.

Section Shared.
  Context {N : Num}.
  Lemma cyclic_snoc n b sh (l : list (@vstep N)) t : cyclic n b sh l ->
    seq (t_f t) (t_c t) = map (fun k => k mod n) (seq (list_sum (map t_c l)) (t_c t)) ->
    0 < t_c t /\ t_c t = Nat.min b (n - t_f t) /\ t_sh t = (sh && (t_f t =? 0)) -> cyclic n b sh (l ++ [t]).
  Proof.
    intros (A & B) C D. split.
    - rewrite flat_map_app, A, map_app. cbn [flat_map map]. rewrite app_nil_r, C.
      replace (list_sum (map t_c l ++ [t_c t])) with (list_sum (map t_c l) + t_c t) by (rewrite list_sum_app; cbn; lia).
      rewrite seq_app, map_app. reflexivity.
    - apply Forall_app. split; [exact B|]. constructor; [exact D|constructor].
  Qed.
  Lemma within_nil inner : within inner (@nil (@vstep N)).
  Proof. intros l t E. destruct l; discriminate. Qed.
  Lemma within_snoc inner (l : list (@vstep N)) t : list_sum (map t_c l) < inner -> within inner (l ++ [t]).
  Proof. intros H l' t' E. apply snoc_inj in E. destruct E as (<- & _). exact H. Qed.
  Lemma cyclic_nil n b sh : cyclic n b sh (@nil (@vstep N)).
  Proof. split; [reflexivity|constructor]. Qed.
  Lemma svrg_steps_snoc (x full : list N) eta l t : svrg_steps x full eta l -> t_x t = last (map t_to l) x ->
    t_to t = vsub (t_x t) (vscale eta (vadd full (over_n (t_c t) (vsub (t_g' t) (t_h' t))))) -> svrg_steps x full eta (l ++ [t]).
  Proof.
    revert x. induction l as [|a l IH]; intros x H E F; cbn [app svrg_steps] in *.
    - cbn in E. rewrite <- E. auto.
    - destruct H as (A & B & C). refine (conj A (conj B _)). apply IH; [exact C| |exact F].
      rewrite E. cbn [map]. destruct l; [reflexivity|].
      cbn [map last]. clear. revert v. induction l as [|c l IH]; intros v; [reflexivity|]. cbn [map last] in *. apply IH.
  Qed.
  Lemma evs_rev_app x (l : list (@oeval N)) h : rev (rev (evs_of x l) ++ h) = rev h ++ evs_of x l.
  Proof. rewrite rev_app_distr, rev_involutive. reflexivity. Qed.
  Lemma batches_eq n b : 0 < b -> n / b + (if n mod b =? 0 then 0 else 1) = batches n b.
  Proof.
    intros Hb. unfold batches. pose proof (Nat.div_mod n b ltac:(lia)) as E. pose proof (Nat.mod_upper_bound n b ltac:(lia)) as L.
    set (q := n / b) in *. set (r := n mod b) in *. rewrite E.
    replace (b * q + r + (b - 1)) with ((r + (b - 1)) + q * b) by lia. rewrite Nat.div_add by lia.
    destruct (Nat.eqb_spec r 0) as [->|R].
    - rewrite Nat.div_small by lia. lia.
    - replace (r + (b - 1)) with ((r - 1) + 1 * b) by lia. rewrite Nat.div_add, Nat.div_small by lia. lia.
  Qed.
End Shared.

Section SVRG.
  Context {N : Num} {D : Type}.
  Variable f : VFun N.
  Variable cb : VCB N.
  Variables (b maxIterations : nat) (tol : N) (shuffle exact : bool).
  Variable dp : D -> list N -> list N -> list N -> nat -> N -> D * N.
  Hypothesis Hb : 0 < b.
  Hypothesis Hn : 0 < vf_num f.
  Notation n := (vf_num f).
  Notation trace := (list (vev N)).
  Notation Inv := (Inv f cb b).
  Notation askb := (askb cb).

  Definition IP (inner : nat) (x0 full : list N) (eta : N) (tr0 : trace) (s : @ist N) : Prop :=
    exists l, i_tr s = rev (flat_map (step_events x0 eta) l) ++ tr0 /\ svrg_steps x0 full eta l /\ cyclic n b shuffle l /\
      i_f s = list_sum (map t_c l) /\ i_cur s <= n /\ i_cur s mod n = i_f s mod n /\ i_x s = last (map t_to l) x0 /\
      within inner l /\ Inv (i_tr s) /\ i_term s = askb (i_tr s).
  Definition IQ (inner : nat) (x0 full : list N) (eta : N) (tr0 : trace) (o : option (@ist N)) : Prop :=
    exists s l rest, o = Some s /\ i_tr s = rev (flat_map (step_events x0 eta) l ++ rest) ++ tr0 /\
      svrg_steps x0 full eta l /\ cyclic n b shuffle l /\ i_x s = last (map t_to l) x0 /\ within inner l /\
      (rest = [] -> inner <= list_sum (map t_c l)) /\ forallb abandoned rest = true /\ (rest <> [] -> i_term s = true) /\
      Inv (i_tr s) /\ i_term s = askb (i_tr s).

  Lemma ibody_ok inner x0 full eta tr0 s : IP inner x0 full eta tr0 s ->
    match ibody f cb b shuffle inner x0 full eta s with inl s' => IP inner x0 full eta tr0 s' | inr o => IQ inner x0 full eta tr0 o end.
  Proof.
    intros (l & Et & Es & Ec & Ef & L & M & Ex & W & I & A). unfold ibody.
    destruct (Nat.ltb_spec (i_f s) inner) as [F|F]; cbn [negb].
    2:{ exists s, l, []. rewrite app_nil_r. refine (conj eq_refl _). sp; auto; try discriminate; try congruence. }
    destruct (Nat.eqb_spec n 0) as [Z|_]; [lia|].
    pose proof (next_cyclic f b Hb (i_cur s) (i_f s) L Hn M) as Q. cbv zeta in Q.
    set (cur := if i_cur s mod n =? 0 then 0 else i_cur s) in *.
    set (sh := (shuffle && (cur =? 0))).
    assert (E : (if i_cur s mod n =? 0 then (0, if shuffle then VShuffle :: i_tr s else i_tr s) else (i_cur s, i_tr s)) =
                (cur, (if sh then [VShuffle] else []) ++ i_tr s)).
    { unfold sh, cur. destruct (Nat.eqb_spec (i_cur s mod n) 0) as [Z|Z]; cbn [Nat.eqb].
      - rewrite andb_true_r. destruct shuffle; reflexivity.
      - replace (i_cur s =? 0) with false; [rewrite andb_false_r; reflexivity|].
        symmetry. apply Nat.eqb_neq. intros Y. rewrite Y, Nat.mod_0_l in Z; lia. }
    rewrite E. clear E. set (tr1 := (if sh then [VShuffle] else []) ++ i_tr s). set (c := Nat.min b (n - cur)) in *.
    destruct Q as (C1 & C2 & C3 & C4).
    assert (I1 : Inv tr1) by (unfold tr1; destruct sh; cbn; repeat split; auto; discriminate).
    assert (A1 : i_term s = askb tr1) by (unfold tr1; destruct sh; cbn; auto).
    destruct (grad_at f cb (i_x s) cur c (i_term s) tr1) as [[[g g'] t2] tr2] eqn:G1.
    apply (grad_at_ok f cb b Hb) in G1; [|lia|lia]. destruct G1 as (-> & I2 & A2).
    destruct (grad_at f cb x0 cur c t2 _) as [[[h h'] t3] tr3] eqn:G2.
    apply (grad_at_ok f cb b Hb) in G2; [|lia|lia]. destruct G2 as (-> & I3 & A3).
    specialize (I3 (I2 I1)). specialize (A3 (A2 A1)).
    set (tr3 := VGrad x0 cur c h h' :: VGrad (i_x s) cur c g g' :: tr1) in *.
    destruct t3.
    - (* break *)
      exists {| i_x := i_x s; i_f := i_f s; i_cur := cur; i_term := true; i_tr := tr3 |}, l,
        ((if sh then [VShuffle] else []) ++ [VGrad (i_x s) cur c g g'; VGrad x0 cur c h h']).
      cbn [i_tr i_x i_term]. refine (conj eq_refl _). sp; auto; try discriminate.
      + unfold tr3, tr1. rewrite !rev_app_distr, <- !app_assoc. cbn [rev app]. rewrite Et. destruct sh; reflexivity.
      + destruct sh; discriminate.
      + destruct sh; reflexivity.
    - set (x' := svrg_update (i_x s) full g' h' c eta).
      exists (l ++ [{| t_sh := sh; t_x := i_x s; t_f := cur; t_c := c; t_g := g; t_g' := g'; t_h := h; t_h' := h'; t_to := x' |}]).
      cbn [i_tr i_x i_term i_f i_cur]. sp.
      + rewrite flat_map_app, rev_app_distr. cbn [flat_map]. rewrite app_nil_r. unfold step_events at 1. cbn [t_sh t_x t_f t_c t_g t_g' t_h t_h' t_to].
        rewrite rev_app_distr. cbn [rev app]. unfold tr3, tr1. rewrite Et. destruct sh; reflexivity.
      + apply svrg_steps_snoc; auto. 
      + apply cyclic_snoc; auto; cbn [t_f t_c t_sh]; [rewrite <- Ef; exact C4|].
        sp; auto; lia.
      + rewrite map_app, list_sum_app. cbn. lia.
      + exact C2.
      + exact C3.
      + rewrite map_app. cbn [map t_to]. rewrite last_app1. reflexivity.
      + apply within_snoc. lia.
      + cbn [VarRedProof.Inv]. sp; cbn; auto.
      + cbn [VarRedProof.askb vasks andb]. rewrite <- A3. apply orb_comm.
  Qed.

  Lemma inner_ok fuel inner x0 full eta tr0 term o : term = askb tr0 -> Inv tr0 ->
    loop (ibody f cb b shuffle inner x0 full eta) fuel {| i_x := x0; i_f := 0; i_cur := 0; i_term := term; i_tr := tr0 |} = inr o ->
    IQ inner x0 full eta tr0 o.
  Proof.
    intros A I. refine (loop_inv_done _ (IP inner x0 full eta tr0) (IQ inner x0 full eta tr0) (ibody_ok inner x0 full eta tr0) _ _ _ _).
    exists []. cbn. sp; auto using within_nil, cyclic_nil. lia.
  Qed.
  Lemma inner_more fuel inner x0 full eta s : inner <= fuel + i_f s -> i_cur s <= n -> 
    exists o, loop (ibody f cb b shuffle inner x0 full eta) (S fuel) s = inr o.
  Proof.
    intros L C. apply (loop_terminates _ (fun s => i_cur s <= n) (fun s => inner - i_f s)); [|exact C|lia].
    clear s L C. intros s C. unfold ibody. destruct (Nat.ltb_spec (i_f s) inner) as [F|F]; cbn [negb]; [|exact Logic.I].
    destruct (Nat.eqb_spec n 0) as [Z|_]; [exact Logic.I|].
    pose proof (next_cyclic f b Hb (i_cur s) (i_cur s) C Hn eq_refl) as Q. cbv zeta in Q.
    destruct (if i_cur s mod n =? 0 then (0, if shuffle then VShuffle :: i_tr s else i_tr s) else (i_cur s, i_tr s)) as [cur tr] eqn:E.
    assert (Ecur : cur = if i_cur s mod n =? 0 then 0 else i_cur s) by (destruct (i_cur s mod n =? 0); congruence).
    rewrite <- Ecur in Q. destruct (grad_at f cb (i_x s) cur _ _ _) as [[[g g'] t2] tr2].
    destruct (grad_at f cb x0 cur _ _ _) as [[[h h'] t3] tr3]. destruct t3; [exact Logic.I|].
    cbn [i_f i_cur]. lia.
  Qed.

  (** ---- outer loop ---- *)
  Lemma svrg_rounds_snoc inner x d eta last rs x1 d1 eta1 last1 r :
    svrg_rounds n b inner shuffle tol dp x d eta last rs x1 d1 eta1 last1 ->
    Forall (fun r => r_rest r = []) rs ->
    r_x r = x1 -> r_eta r = eta1 -> svrg_round n b inner shuffle r -> converged tol last1 (total (r_evals r)) = false ->
    svrg_rounds n b inner shuffle tol dp x d eta last (rs ++ [r]) (r_end r)
      (fst (dp d1 (r_end r) x1 (r_full n r) (batches n b) eta1)) (snd (dp d1 (r_end r) x1 (r_full n r) (batches n b) eta1)) (total (r_evals r)).
  Proof.
    revert x d eta last. induction rs as [|a rs IH]; intros x d eta last H F Ex Ee R C; cbn [app svrg_rounds] in *.
    - destruct H as (-> & -> & -> & ->). sp; auto. intros []. reflexivity.
    - destruct H as (A1 & A2 & A3 & _ & A5 & A6). inversion F as [|? ? F1 F2]; subst. sp; auto.
  Qed.

  Variables (inner0 : nat) (d0 : D) (eta0 : N) (x0 : list N).
  Notation inner := (inner_of f inner0).
  Definition pre (rs : list (@vround N)) : trace := VBegin x0 :: flat_map round_events rs.

  Definition OP (s : @sst N D) : Prop :=
    exists rs, s_tr s = rev (pre rs) /\ svrg_rounds n b inner shuffle tol dp x0 d0 eta0 nmax rs (s_x s) (s_d s) (s_eta s) (s_last s) /\
      s_over s = (match rs with [] => n0 | _ => s_last s end) /\ length rs = s_i s /\ s_i s <= smax maxIterations /\
      (s_term s = false -> Forall (fun r => r_rest r = []) rs) /\ Inv (s_tr s) /\ s_term s = askb (s_tr s).
  Definition OQ (e : @sexit N D) : Prop :=
    match e with
    | SBad => False
    | SMore => True
    | SConv s => exists rs l, s_tr s = rev (pre rs ++ evs_of (s_x s) l) /\
        svrg_rounds n b inner shuffle tol dp x0 d0 eta0 nmax rs (s_x s) (s_d s) (s_eta s) (s_last s) /\ length rs < smax maxIterations /\
        split_of n b (map fst l) /\ s_over s = total l /\ converged tol (s_last s) (total l) = true /\ Inv (s_tr s)
    | SDone s => exists rs l g last, s_tr s = rev (pre rs ++ evs_of (s_x s) l ++ grs_of (s_x s) g) /\
        svrg_rounds n b inner shuffle tol dp x0 d0 eta0 nmax rs (s_x s) (s_d s) (s_eta s) last /\ length rs <= smax maxIterations /\
        (l = [] \/ (split_of n b (map fst l) /\ length rs < smax maxIterations)) /\ (g = [] \/ (split_of n b (map fst g) /\ l <> [])) /\
        s_over s = (match l with [] => match rs with [] => n0 | _ => last end | _ => total l end) /\
        (length rs = smax maxIterations \/ askb (s_tr s) = true) /\ Inv (s_tr s)
    end.

  Lemma split_nonempty (l : list (nat * nat)) : split_of n b l -> l <> [].
  Proof. intros (A & _) ->. cbn in A. destruct (vf_num f); [lia|discriminate]. Qed.

  Lemma sbody_ok fuel s : OP s ->
    match sbody f cb b maxIterations tol shuffle dp fuel inner s with inl s' => OP s' | inr e => OQ e end.
  Proof.
    intros (rs & Et & Er & Eo & El & Lm & R & I & A). unfold sbody.
    destruct ((s_i s <? smax maxIterations) && negb (s_term s)) eqn:Cnd; cbn [negb].
    2:{ exists rs, [], [], (s_last s). cbn [evs_of grs_of map app]. rewrite app_nil_r. sp; auto; [lia|].
        apply andb_false_iff in Cnd. destruct Cnd as [Cnd|Cnd].
        - apply Nat.ltb_ge in Cnd. left. lia.
        - right. apply negb_false_iff in Cnd. congruence. }
    apply andb_prop in Cnd. destruct Cnd as (C1 & C2). apply Nat.ltb_lt in C1. apply negb_true_iff in C2.
    destruct eval_pass as [[[over term] tr]|] eqn:P; [|exact Logic.I].
    apply (eval_pass_ok f cb b Hb) in P. destruct P as (l & -> & S & V & I1 & A1). specialize (I1 I). specialize (A1 A).
    assert (Sp : split_of n b (map fst l)) by (destruct S as (S1 & S2); rewrite Nat.sub_0_r in S1; split; assumption).
    assert (Ne : l <> []) by (intros ->; apply (split_nonempty _ Sp); reflexivity).
    destruct term.
    { exists rs, l, [], (s_last s). cbn [s_tr s_x s_over s_d s_eta grs_of map]. rewrite app_nil_r.
      sp; auto; try lia.
      - rewrite rev_app_distr, Et. reflexivity.
      - right. split; [exact Sp|]. lia.
      - destruct l; [congruence|]. exact V. }
    destruct (nisnan over || nisinf over || nlt (nabs (nsub (s_last s) over)) tol) eqn:Cv.
    { exists rs, l. cbn [s_tr s_x s_over s_d s_eta s_last]. sp; auto; try lia.
      - rewrite rev_app_distr, Et. reflexivity.
      - unfold converged. change (total l) with (fold_left nadd (map snd l) n0). rewrite <- V. exact Cv. }
    destruct full_gradient as [[[full term2] tr2]|] eqn:G; [|exact Logic.I].
    apply (full_gradient_ok f cb b Hb) in G; [|exact Hn]. destruct G as (p & gs & -> & S2 & Efull & I2 & A2).
    specialize (I2 I1). specialize (A2 A1). cbn [grs_mode used] in *.
    change (grs_of (s_x s) [p] ++ grs_of (s_x s) gs) with (grs_of (s_x s) (p :: gs)) in *.
    assert (Tr : rev (grs_of (s_x s) (p :: gs)) ++ rev (evs_of (s_x s) l) ++ s_tr s =
                 rev (pre rs ++ evs_of (s_x s) l ++ grs_of (s_x s) (p :: gs))).
    { rewrite !rev_app_distr, Et, <- !app_assoc. reflexivity. }
    rewrite Tr in *. clear Tr.
    destruct term2.
    { exists rs, l, (p :: gs), (s_last s). cbn [s_tr s_x s_over s_d s_eta]. sp; auto; try lia.
      - right. split; [exact Sp|lia].
      - destruct l; [congruence|]. exact V. }
    set (tr2 := rev (pre rs ++ evs_of (s_x s) l ++ grs_of (s_x s) (p :: gs))) in *.
    destruct (loop _ fuel _) as [t|o] eqn:Lp; [exact Logic.I|].
    apply inner_ok in Lp; [|exact A2|exact I2].
    destruct Lp as (t & st & rest & -> & Tt & Ss & Cy & Ex & W & Z & Ab & Rt & I3 & A3).
    set (r := {| r_x := s_x s; r_eta := s_eta s; r_evals := l; r_grads := p :: gs; r_steps := st; r_rest := rest |}).
    assert (Full : full = r_full n r) by exact Efull.
    assert (Rd : svrg_round n b inner shuffle r) by (unfold svrg_round; sp; auto; rewrite <- Full; exact Ss).
    assert (Enr : i_x t = r_end r) by exact Ex.
    destruct (dp (s_d s) (i_x t) (s_x s) full (numBatches f b) (s_eta s)) as [d eta] eqn:Dp.
    unfold numBatches in Dp. rewrite batches_eq in Dp by exact Hb. rewrite Enr, Full in Dp.
    assert (Cv' : converged tol (s_last s) (total (r_evals r)) = false).
    { unfold converged. change (total (r_evals r)) with (fold_left nadd (map snd l) n0). rewrite <- V. exact Cv. }
    pose proof (svrg_rounds_snoc inner x0 d0 eta0 nmax rs _ _ _ _ r Er (R C2) eq_refl eq_refl Rd Cv') as Sn.
    rewrite Dp in Sn. cbn [fst snd] in Sn.
    exists (rs ++ [r]). cbn [s_tr s_x s_over s_d s_eta s_last s_i s_term]. sp.
    - rewrite Tt. unfold pre. rewrite flat_map_app. cbn [flat_map]. rewrite app_nil_r.
      unfold tr2, pre. rewrite <- rev_app_distr. f_equal. rewrite app_comm_cons, <- !app_assoc. f_equal.
    - rewrite Enr. replace over with (total (r_evals r)) by (symmetry; exact V). exact Sn.
    - destruct (rs ++ [r]) eqn:Y; [destruct rs; discriminate|reflexivity].
    - rewrite app_length. cbn. lia.
    - lia.
    - intros T. apply Forall_app. split; [auto|]. constructor; [|constructor]. cbn.
      destruct rest; [reflexivity|]. assert (i_term t = true) by (apply Rt; discriminate). congruence.
    - exact I3.
    - exact A3.
  Qed.

  Lemma rev_pre_end rs (x : list N) l : rev (VEnd x :: rev (pre rs ++ l)) = VBegin x0 :: flat_map round_events rs ++ l ++ [VEnd x].
  Proof. cbn [rev]. rewrite rev_involutive. unfold pre. rewrite <- app_assoc. reflexivity. Qed.

  Lemma Inv_end (x : list N) tr : Inv tr ->
    Forall (in_range n b) (rev tr ++ [VEnd x]) /\ computed f cb (rev tr ++ [VEnd x]) /\ honoured cb (rev tr ++ [VEnd x]).
  Proof. intros H. apply (Inv_final f cb b Hb (VEnd x :: tr)). cbn. sp; auto. discriminate. Qed.

  Lemma svrg_ok fuel r : svrg f cb b maxIterations tol shuffle exact dp fuel inner0 d0 eta0 x0 = Ret r ->
    svrg_report f cb b maxIterations tol shuffle exact dp inner0 d0 eta0 x0 (vr_val r) (vr_x r) (vr_tr r) (vr_conv r)
      (fst (fst (vr_st r))) (snd (fst (vr_st r))) (snd (vr_st r)) /\
    Forall (in_range n b) (vr_tr r) /\ computed f cb (vr_tr r) /\ honoured cb (vr_tr r).
  Proof.
    unfold svrg. destruct (Nat.eqb_spec b 0) as [?|_]; [lia|].
    destruct (loop _ fuel _) as [s|e] eqn:Lp; [discriminate|].
    assert (Q : OQ e).
    { refine (loop_inv_done _ OP OQ (sbody_ok fuel) _ _ _ _ Lp). exists []. cbn. sp; auto; try discriminate.
      lia. }
    assert (Hlim : limit maxIterations = smax maxIterations) by (destruct maxIterations; reflexivity).
    destruct e as [s|s| |]; try discriminate; cbn [OQ] in Q.
    - destruct Q as (rs & l & g & last & Et & Er & Ln & El & Eg & Eo & St & I).
      destruct exact.
      + destruct (eval_pass f cb b fuel (s_x s) 0 n0 false (s_tr s)) as [[[v u] tr]|] eqn:P; [|discriminate]. intros [= <-].
        apply (eval_pass_ok f cb b Hb) in P. destruct P as (lf & -> & S & V & I1 & _). specialize (I1 I).
        assert (Sp : split_of n b (map fst lf)) by (destruct S as (S1 & S2); rewrite Nat.sub_0_r in S1; split; assumption).
        cbn [vr_val vr_x vr_tr vr_conv vr_st fst snd]. split.
        * split; [reflexivity|]. exists rs, {| e_evals := l; e_grads := g; e_final := lf |}, last.
          cbn [e_evals e_grads e_final]. rewrite Hlim. sp; auto.
          -- rewrite Et. replace (rev (evs_of (s_x s) lf) ++ rev (pre rs ++ evs_of (s_x s) l ++ grs_of (s_x s) g))
               with (rev (pre rs ++ (evs_of (s_x s) l ++ grs_of (s_x s) g ++ evs_of (s_x s) lf)))
               by (rewrite <- rev_app_distr, <- !app_assoc; reflexivity).
             exact (rev_pre_end rs (s_x s) _).
          -- destruct St as [St|St]; [left; exact St|right]. apply askb_spec in St. rewrite Et, rev_involutive in St. exact St.
        * apply Inv_end. assumption.
      + intros [= <-]. cbn [vr_val vr_x vr_tr vr_conv vr_st fst snd]. split.
        * split; [reflexivity|]. exists rs, {| e_evals := l; e_grads := g; e_final := [] |}, last.
          cbn [e_evals e_grads e_final]. rewrite Hlim. sp; auto.
          -- rewrite Et. refine (eq_trans (rev_pre_end rs (s_x s) _) _). unfold tail_events. cbn [e_evals e_grads e_final evs_of map]. rewrite app_nil_r. reflexivity.
          -- destruct St as [St|St]; [left; exact St|right]. apply askb_spec in St. rewrite Et, rev_involutive in St. exact St.
        * apply Inv_end. assumption.
    - destruct Q as (rs & l & Et & Er & Ln & Sp & Eo & Cv & I). intros [= <-]. cbn [vr_val vr_x vr_tr vr_conv vr_st fst snd]. split.
      + split; [reflexivity|]. exists rs, {| e_evals := l; e_grads := []; e_final := [] |}, (s_last s).
        cbn [e_evals e_grads e_final]. rewrite Hlim. sp; auto; try lia.
        rewrite Et. refine (eq_trans (rev_pre_end rs (s_x s) _) _). unfold tail_events. cbn [e_evals e_grads e_final evs_of grs_of map]. rewrite !app_nil_r. reflexivity.
      + apply Inv_end. assumption.
  Qed.

  Lemma svrg_returns fuel : limit maxIterations < fuel -> n <= fuel -> inner < fuel ->
    exists r, svrg f cb b maxIterations tol shuffle exact dp fuel inner0 d0 eta0 x0 = Ret r.
  Proof.
    intros L1 L2 L3. unfold svrg. destruct (Nat.eqb_spec b 0) as [?|_]; [lia|].
    assert (Hlim : limit maxIterations = smax maxIterations) by (destruct maxIterations; reflexivity). rewrite Hlim in L1.
    set (s0 := {| s_x := x0; s_d := d0; s_eta := eta0; s_last := nmax; s_over := n0; s_term := false; s_i := 0; s_tr := [VBegin x0] |}).
    assert (P0 : OP s0) by (exists []; cbn; sp; auto; try discriminate; lia).
    destruct (loop_terminates (sbody f cb b maxIterations tol shuffle dp fuel inner) OP (fun s => smax maxIterations - s_i s)) with (fuel := fuel) (s := s0) as (e & He).
    - intros s Hs. pose proof (sbody_ok fuel s Hs) as B. unfold sbody in *.
      destruct ((s_i s <? smax maxIterations) && negb (s_term s)) eqn:Cnd; cbn [negb] in *; [|exact Logic.I].
      apply andb_prop in Cnd. destruct Cnd as (C1 & _). apply Nat.ltb_lt in C1.
      destruct eval_pass as [[[over term] tr]|]; [|exact Logic.I]. destruct term; [exact Logic.I|].
      destruct (nisnan over || nisinf over || nlt (nabs (nsub (s_last s) over)) tol); [exact Logic.I|].
      destruct full_gradient as [[[full term2] tr2]|]; [|exact Logic.I]. destruct term2; [exact Logic.I|].
      destruct (loop _ fuel _) as [t|[t|]]; try exact Logic.I. destruct (dp _ _ _ _ _ _) as [d eta].
      split; [exact B|]. cbn [s_i]. lia.
    - exact P0.
    - cbn [s_i s0]. lia.
    - rewrite He.
      assert (Q : OQ e /\ e <> SMore).
      { refine (loop_inv_done _ OP (fun e => OQ e /\ e <> SMore) _ _ _ _ _ He).
        - intros s Hs. pose proof (sbody_ok fuel s Hs) as B. unfold sbody in *.
          destruct ((s_i s <? smax maxIterations) && negb (s_term s)); cbn [negb] in *; [|split; [exact B|discriminate]].
          destruct (eval_pass_more f cb b Hb fuel (s_x s) 0 n0 (s_term s) (s_tr s)) as [[[over term] tr] E1]; [lia|]. rewrite E1 in *.
          destruct term; [split; [exact B|discriminate]|].
          destruct (nisnan over || nisinf over || nlt (nabs (nsub (s_last s) over)) tol); [split; [exact B|discriminate]|].
          destruct (full_gradient_more f cb b Hb Hooked fuel (s_x s) (s_x s) false tr) as [[[full term2] tr2] E2]; [exact L2|]. rewrite E2 in *.
          destruct term2; [split; [exact B|discriminate]|].
          destruct fuel as [|fl]; [lia|].
          destruct (inner_more fl inner (s_x s) full (s_eta s) {| i_x := s_x s; i_f := 0; i_cur := 0; i_term := false; i_tr := tr2 |}) as (o & Eo);
            [cbn [i_f]; lia|cbn [i_cur]; lia|]. rewrite Eo in *.
          destruct o as [t|]; [|split; [exact B|discriminate]]. destruct (dp _ _ _ _ _ _) as [d eta]. exact B.
        - exists []. cbn. sp; auto; try discriminate; lia. }
      destruct Q as (Q & NM). destruct e as [s|s| |]; try congruence; [|eauto|destruct Q].
      destruct exact; [|eauto].
      destruct (eval_pass_more f cb b Hb fuel (s_x s) 0 n0 false (s_tr s)) as [[[v u] tr] ->]; [lia|]. eauto.
  Qed.
End SVRG.
