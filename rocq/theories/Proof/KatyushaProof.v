(** Katyusha (Model/Katyusha.v). *)
From Coq Require Import List Arith Bool Lia.
From Verif.Base Require Import Num Vec Size Loop.
From Verif.Model Require Import Common VarRed SVRG Katyusha.
From Verif.Spec Require Import SgdSpec VarRedSpec SarahSpec.
From Verif.Proof Require Import VarRedProof SVRGProof.
Import ListNotations.

Section Kat.
  Context {N : Num}.
  Variable f : VFun N.
  Variable cb : VCB N.
  Variable proximal : bool.
  Variables (convexity lipschitz : N) (b maxIterations : nat) (tol : N) (shuffle exact : bool).
  Hypothesis Hb : 0 < b.
  Hypothesis Hn : 0 < vf_num f.
  Notation n := (vf_num f).
  Notation trace := (list (vev N)).
  Notation Inv := (Inv f cb b).
  Notation askb := (askb cb).
  Notation t1 := (tau1 convexity lipschitz b).
  Notation al := (alpha convexity lipschitz b).
  Notation rr inner := (kr convexity lipschitz b inner).
  Notation nm inner := (normalizer f convexity lipschitz b inner).
  Notation ksteps inner := (kat_steps b proximal lipschitz t1 tau2 al (rr inner)).
  Notation kev := (kstep_events al).

  Definition cw_of (inner : nat) (cw : N) (l : list (@vstep N)) : N := fold_left (fun c _ => nmul c (rr inner)) l cw.

  Lemma ksteps_snoc inner x0 full y z w cw l y1 z1 w1 t : ksteps inner x0 full y z w cw l y1 z1 w1 ->
    t_x t = kat_x convexity lipschitz b x0 y1 z1 -> t_to t = t_x t ->
    ksteps inner x0 full y z w cw (l ++ [t])
      (kat_y proximal convexity lipschitz b (t_x t) w1 z1 (kat_z convexity lipschitz b z1 full (t_g' t) (t_h' t)))
      (kat_z convexity lipschitz b z1 full (t_g' t) (t_h' t)) (vadd w1 (vscale (cw_of inner cw l) (t_x t))).
  Proof.
    revert y z w cw. induction l as [|a l IH]; intros y z w cw H E1 E2; cbn [app SarahSpec.kat_steps] in *.
    - destruct H as (-> & -> & ->). sp; auto.
    - destruct H as (A1 & A2 & A3). sp; auto. apply (IH _ _ _ _ A3 E1 E2).
  Qed.

  Definition KP (inner : nat) (xs x0 full y z : list N) (tr0 : trace) (s : @kst N) : Prop :=
    exists l, k_tr s = rev (flat_map (kev x0) l) ++ tr0 /\
      ksteps inner x0 full y z (map (fun _ => n0) xs) n1 l (k_y s) (k_z s) (k_w s) /\ k_cw s = cw_of inner n1 l /\ cyclic n b shuffle l /\
      k_f s = list_sum (map t_c l) /\ k_cur s <= n /\ k_cur s mod n = k_f s mod n /\ k_x s = last (map t_to l) xs /\
      within inner l /\ Inv (k_tr s) /\ k_term s = askb (k_tr s).
  Definition KQ (inner : nat) (xs x0 full y z : list N) (tr0 : trace) (o : option (@kst N)) : Prop :=
    exists s l, o = Some s /\ k_tr s = rev (flat_map (kev x0) l) ++ tr0 /\
      ksteps inner x0 full y z (map (fun _ => n0) xs) n1 l (k_y s) (k_z s) (k_w s) /\ cyclic n b shuffle l /\
      k_x s = last (map t_to l) xs /\ within inner l /\ (inner <= list_sum (map t_c l) \/ k_term s = true) /\
      Inv (k_tr s) /\ k_term s = askb (k_tr s).

  Notation kb := (kbody f cb proximal convexity lipschitz b shuffle).
  Lemma kbody_ok inner xs x0 full y z tr0 s : KP inner xs x0 full y z tr0 s ->
    match kb inner x0 full s with inl s' => KP inner xs x0 full y z tr0 s' | inr o => KQ inner xs x0 full y z tr0 o end.
  Proof.
    intros (l & Et & Es & Ecw & Ec & Ef & L & M & Ex & W & I & A). unfold kbody.
    destruct ((k_f s <? inner) && negb (k_term s)) eqn:Cnd; cbn [negb].
    2:{ exists s, l. refine (conj eq_refl _). sp; auto. apply andb_false_iff in Cnd. destruct Cnd as [Cnd|Cnd].
        - apply Nat.ltb_ge in Cnd. left. lia.
        - right. apply negb_false_iff in Cnd. exact Cnd. }
    apply andb_prop in Cnd. destruct Cnd as (F & Tf). apply Nat.ltb_lt in F. apply negb_true_iff in Tf.
    destruct (Nat.eqb_spec n 0) as [Z|_]; [lia|].
    pose proof (next_cyclic f b Hb (k_cur s) (k_f s) L Hn M) as Q. cbv zeta in Q.
    set (cur := if k_cur s mod n =? 0 then 0 else k_cur s) in *.
    set (sh := (shuffle && (cur =? 0))).
    assert (E : (if k_cur s mod n =? 0 then (0, if shuffle then VShuffle :: k_tr s else k_tr s) else (k_cur s, k_tr s)) =
                (cur, (if sh then [VShuffle] else []) ++ k_tr s)).
    { unfold sh, cur. destruct (Nat.eqb_spec (k_cur s mod n) 0) as [Z|Z]; cbn [Nat.eqb].
      - rewrite andb_true_r. destruct shuffle; reflexivity.
      - replace (k_cur s =? 0) with false; [rewrite andb_false_r; reflexivity|].
        symmetry. apply Nat.eqb_neq. intros Y. rewrite Y, Nat.mod_0_l in Z; lia. }
    rewrite E. clear E. set (tr1 := (if sh then [VShuffle] else []) ++ k_tr s). set (c := Nat.min b (n - cur)) in *.
    destruct Q as (C1 & C2 & C3 & C4).
    assert (I1 : Inv tr1) by (unfold tr1; destruct sh; cbn; repeat split; auto; discriminate).
    assert (A1 : k_term s = askb tr1) by (unfold tr1; destruct sh; cbn; auto).
    set (x := kat_x convexity lipschitz b x0 (k_y s) (k_z s)).
    set (tr1' := VStep x al :: tr1).
    assert (I1' : Inv tr1') by (unfold tr1'; cbn [VarRedProof.Inv]; sp; cbn; auto; intros _; congruence).
    assert (A1' : k_term s || vc_stop cb tr1' = askb tr1') by (unfold tr1'; cbn [VarRedProof.askb vasks andb]; rewrite A1; apply orb_comm).
    destruct (grad_at f cb x cur c (k_term s || vc_stop cb tr1') tr1') as [[[g g'] t2] tr2] eqn:G1.
    apply (grad_at_ok f cb b Hb) in G1; [|lia|lia]. destruct G1 as (-> & I2 & A2).
    destruct (grad_at f cb x0 cur c t2 _) as [[[h h'] t3] tr3] eqn:G2.
    apply (grad_at_ok f cb b Hb) in G2; [|lia|lia]. destruct G2 as (-> & I3 & A3).
    specialize (I3 (I2 I1')). specialize (A3 (A2 A1')).
    set (t := {| t_sh := sh; t_x := x; t_f := cur; t_c := c; t_g := g; t_g' := g'; t_h := h; t_h' := h'; t_to := x |}).
    exists (l ++ [t]). cbn [k_tr k_y k_z k_w k_cw k_f k_cur k_x k_term]. sp; auto.
    - rewrite flat_map_app, rev_app_distr. cbn [flat_map]. rewrite app_nil_r. unfold kstep_events at 1.
      cbn [t t_sh t_x t_f t_c t_g t_g' t_h t_h' t_to]. rewrite rev_app_distr. cbn [rev app]. unfold tr1', tr1. rewrite Et. destruct sh; reflexivity.
    - rewrite Ecw. exact (ksteps_snoc inner x0 full y z _ _ l (k_y s) (k_z s) (k_w s) t Es eq_refl eq_refl).
    - unfold cw_of. rewrite fold_left_app. cbn [fold_left]. fold (cw_of inner n1 l). rewrite Ecw. reflexivity.
    - apply cyclic_snoc; auto; cbn [t t_f t_c t_sh]; [rewrite <- Ef; exact C4|]. sp; auto; lia.
    - rewrite map_app, list_sum_app. cbn. lia.
    - rewrite map_app. cbn [map t t_to]. rewrite last_app1. reflexivity.
    - apply within_snoc. lia.
  Qed.
  Lemma kinner_ok fuel inner xs x0 full y z tr0 term o : term = askb tr0 -> Inv tr0 ->
    loop (kb inner x0 full) fuel {| k_x := xs; k_y := y; k_z := z; k_w := map (fun _ => n0) xs; k_cw := n1; k_f := 0; k_cur := 0;
                                    k_term := term; k_tr := tr0 |} = inr o -> KQ inner xs x0 full y z tr0 o.
  Proof.
    intros A I. refine (loop_inv_done _ (KP inner xs x0 full y z tr0) (KQ inner xs x0 full y z tr0) (kbody_ok inner xs x0 full y z tr0) _ _ _ _).
    exists []. cbn. sp; auto using within_nil, cyclic_nil. lia.
  Qed.
  Lemma kinner_more fuel inner x0 full s : inner <= fuel + k_f s -> k_cur s <= n -> exists o, loop (kb inner x0 full) (S fuel) s = inr o.
  Proof.
    intros L C. apply (loop_terminates _ (fun s => k_cur s <= n) (fun s => inner - k_f s)); [|exact C|lia].
    clear s L C. intros s C. unfold kbody. destruct ((k_f s <? inner) && negb (k_term s)) eqn:Cnd; cbn [negb]; [|exact Logic.I].
    apply andb_prop in Cnd. destruct Cnd as (F & _). apply Nat.ltb_lt in F.
    destruct (Nat.eqb_spec n 0) as [Z|_]; [exact Logic.I|].
    pose proof (next_cyclic f b Hb (k_cur s) (k_cur s) C Hn eq_refl) as Q. cbv zeta in Q.
    destruct (if k_cur s mod n =? 0 then (0, if shuffle then VShuffle :: k_tr s else k_tr s) else (k_cur s, k_tr s)) as [cur tr] eqn:E.
    assert (Ecur : cur = if k_cur s mod n =? 0 then 0 else k_cur s) by (destruct (k_cur s mod n =? 0); congruence).
    rewrite <- Ecur in Q. destruct (grad_at f cb (kat_x _ _ _ _ _ _) cur _ _ _) as [[[g g'] t2] tr2].
    destruct (grad_at f cb x0 cur _ _ _) as [[[h h'] t3] tr3]. cbn [k_f k_cur]. lia.
  Qed.

  (** ---- outer loop ---- *)
  Variables (inner0 : nat) (x0 : list N).
  Notation inner := (inner_of f inner0).
  Notation rounds := (kat_rounds n b inner shuffle proximal lipschitz t1 tau2 al (rr inner) (nm inner) tol).
  Notation round_ok := (kat_round n b inner shuffle proximal lipschitz t1 tau2 al (rr inner)).
  Notation revents := (kround_events al).

  (** as [kat_rounds], but with y and z *)
  Definition yz (y z : list N) (rs : list (@kround N)) : list N * list N := fold_left (fun _ q => (g_y' q, g_z' q)) rs (y, z).
  Lemma krounds_snoc x xs y z last rs x1 xs1 last1 q : rounds x xs y z last rs x1 xs1 last1 -> Forall (g_complete inner) rs ->
    g_x q = x1 -> g_x0 q = xs1 -> g_y q = fst (yz y z rs) -> g_z q = snd (yz y z rs) -> round_ok q -> converged tol last1 (total (g_evals q)) = false ->
    rounds x xs y z last (rs ++ [q]) (g_end q) (vscale (nm inner) (g_w' q)) (total (g_evals q)).
  Proof.
    revert x xs y z last. induction rs as [|a rs IH]; intros x xs y z last H F E1 E2 E3 E4 R C; cbn [app kat_rounds] in *.
    - destruct H as (-> & -> & ->). sp; auto. intros []. reflexivity.
    - destruct H as (A1 & A2 & A3 & A4 & A5 & _ & A7 & A8). apply Forall_cons_iff in F. destruct F as (F1 & F2). sp; auto.
  Qed.

  Definition kpre (rs : list (@kround N)) : trace := VBegin x0 :: flat_map revents rs.
  Definition HP (s : @hst N) : Prop :=
    exists rs, h_tr s = rev (kpre rs) /\ rounds x0 x0 x0 x0 nmax rs (h_x s) (h_x0 s) (h_last s) /\
      (h_y s, h_z s) = yz x0 x0 rs /\
      h_over s = (match rs with [] => n0 | _ => h_last s end) /\ length rs = h_i s /\ h_i s <= smax maxIterations /\
      (h_term s = false -> Forall (g_complete inner) rs) /\ Inv (h_tr s) /\ h_term s = askb (h_tr s).
  Definition HQ (e : @hexit N) : Prop :=
    match e with
    | HBad => False
    | HMore => True
    | HConv s => exists rs l, h_tr s = rev (kpre rs ++ evs_of (h_x0 s) l) /\ rounds x0 x0 x0 x0 nmax rs (h_x s) (h_x0 s) (h_last s) /\
        length rs < smax maxIterations /\ split_of n b (map fst l) /\ h_over s = total l /\
        converged tol (h_last s) (total l) = true /\ Inv (h_tr s)
    | HDone s => exists rs, h_tr s = rev (kpre rs) /\ rounds x0 x0 x0 x0 nmax rs (h_x s) (h_x0 s) (h_last s) /\
        length rs <= smax maxIterations /\ h_over s = (match rs with [] => n0 | _ => h_last s end) /\
        (askb (h_tr s) = true \/ (length rs = smax maxIterations /\ Forall (g_complete inner) rs)) /\ Inv (h_tr s)
    end.

  Notation hb := (hbody f cb proximal convexity lipschitz b maxIterations tol shuffle).
  Lemma hbody_ok fuel s : HP s -> match hb fuel inner s with inl s' => HP s' | inr e => HQ e end.
  Proof.
    intros (rs & Et & Er & Eyz & Eo & El & Lm & R & I & A). unfold hbody.
    destruct ((h_i s <? smax maxIterations) && negb (h_term s)) eqn:Cnd; cbn [negb].
    2:{ exists rs. sp; auto; [lia|]. destruct (h_term s) eqn:T; [left; congruence|]. cbn [negb] in Cnd. rewrite andb_true_r in Cnd.
        apply Nat.ltb_ge in Cnd. right. split; [lia|auto]. }
    apply andb_prop in Cnd. destruct Cnd as (C1 & C2). apply Nat.ltb_lt in C1. apply negb_true_iff in C2.
    destruct eval_pass as [[[over term] tr]|] eqn:P; [|exact Logic.I].
    apply (eval_pass_ok f cb b Hb) in P. destruct P as (l & -> & S & V & I1 & A1). specialize (I1 I). specialize (A1 A).
    assert (Sp : split_of n b (map fst l)) by (destruct S as (S1 & S2); rewrite Nat.sub_0_r in S1; split; assumption).
    destruct (nisnan over || nisinf over || nlt (nabs (nsub (h_last s) over)) tol) eqn:Cv.
    { exists rs, l. cbn [h_tr h_x h_x0 h_over h_last]. sp; auto; try lia.
      - rewrite rev_app_distr, Et. reflexivity.
      - unfold converged. change (total l) with (fold_left nadd (map snd l) n0). rewrite <- V. exact Cv. }
    destruct full_gradient as [[[full term2] tr2]|] eqn:G; [|exact Logic.I].
    apply (full_gradient_ok f cb b Hb) in G; [|exact Hn]. destruct G as (p & gs & -> & S2 & Efull & I2 & A2).
    specialize (I2 I1). specialize (A2 A1). cbn [grs_mode used] in *.
    assert (Tr : rev (grs_of (h_x s) [p] ++ grs_of (h_x0 s) gs) ++ rev (evs_of (h_x0 s) l) ++ h_tr s =
                 rev (kpre rs ++ evs_of (h_x0 s) l ++ grs_of (h_x s) [p] ++ grs_of (h_x0 s) gs)).
    { rewrite !rev_app_distr, Et, <- !app_assoc. reflexivity. }
    rewrite Tr in *. clear Tr.
    set (tr2 := rev (kpre rs ++ evs_of (h_x0 s) l ++ grs_of (h_x s) [p] ++ grs_of (h_x0 s) gs)) in *.
    destruct (loop _ fuel _) as [t|o] eqn:Lp; [exact Logic.I|].
    apply kinner_ok in Lp; [|exact A2|exact I2].
    destruct Lp as (t & st & -> & Tt & Ss & Cy & Ex & W & Z & I3 & A3).
    set (q := {| g_x := h_x s; g_x0 := h_x0 s; g_y := h_y s; g_z := h_z s; g_evals := l; g_first := p; g_grads := gs; g_steps := st;
                 g_y' := k_y t; g_z' := k_z t; g_w' := k_w t |}).
    assert (Full : full = g_full n q) by exact Efull.
    assert (Rd : round_ok q) by (unfold kat_round; sp; auto; rewrite <- Full; exact Ss).
    assert (Enr : k_x t = g_end q) by exact Ex.
    assert (Cv' : converged tol (h_last s) (total (g_evals q)) = false).
    { unfold converged. change (total (g_evals q)) with (fold_left nadd (map snd l) n0). rewrite <- V. exact Cv. }
    assert (Ey : g_y q = fst (yz x0 x0 rs)) by (rewrite <- Eyz; reflexivity).
    assert (Ez : g_z q = snd (yz x0 x0 rs)) by (rewrite <- Eyz; reflexivity).
    pose proof (krounds_snoc x0 x0 x0 x0 nmax rs _ _ _ q Er (R C2) eq_refl eq_refl Ey Ez Rd Cv') as Sn.
    exists (rs ++ [q]). cbn [h_tr h_x h_x0 h_y h_z h_over h_last h_i h_term]. sp.
    - rewrite Tt. unfold kpre. rewrite flat_map_app. cbn [flat_map]. rewrite app_nil_r.
      unfold tr2, kpre. rewrite <- rev_app_distr. f_equal. rewrite app_comm_cons, <- !app_assoc. f_equal.
    - rewrite Enr. replace over with (total (g_evals q)) by (symmetry; exact V). exact Sn.
    - unfold yz. rewrite fold_left_app. reflexivity.
    - destruct (rs ++ [q]) eqn:Y; [destruct rs; discriminate|reflexivity].
    - rewrite app_length. cbn. lia.
    - lia.
    - intros T. apply Forall_app. split; [auto|]. constructor; [|constructor]. unfold g_complete. cbn [q g_steps].
      destruct Z as [Z|Z]; [exact Z|congruence].
    - exact I3.
    - exact A3.
  Qed.

  Lemma rev_kpre_end rs (x : list N) l : rev (VEnd x :: rev (kpre rs ++ l)) = VBegin x0 :: flat_map revents rs ++ l ++ [VEnd x].
  Proof. cbn [rev]. rewrite rev_involutive. unfold kpre. rewrite <- app_assoc. reflexivity. Qed.

  Notation run fuel := (katyusha f cb proximal convexity lipschitz b maxIterations tol shuffle exact fuel inner0 x0).
  Lemma katyusha_ok fuel r : run fuel = Ret r ->
    katyusha_report n b (vr_st r) shuffle proximal lipschitz t1 tau2 al (rr (vr_st r)) (nm (vr_st r)) cb maxIterations tol exact x0
      (vr_val r) (vr_x r) (vr_tr r) (vr_conv r) /\
    vr_st r = (match inner0 with O => n | _ => inner0 end) /\
    Forall (in_range n b) (vr_tr r) /\ computed f cb (vr_tr r) /\ honoured cb (vr_tr r).
  Proof.
    unfold katyusha. destruct (Nat.eqb_spec b 0) as [?|_]; [lia|].
    destruct (loop _ fuel _) as [s|e] eqn:Lp; [discriminate|].
    assert (Q : HQ e).
    { refine (loop_inv_done _ HP HQ (hbody_ok fuel) _ _ _ _ Lp). exists []. cbn. sp; auto; try discriminate. lia. }
    assert (Hlim : limit maxIterations = smax maxIterations) by (destruct maxIterations; reflexivity).
    destruct e as [s|s| |]; try discriminate; cbn [HQ] in Q.
    - destruct Q as (rs & Et & Er & Ln & Eo & St & I).
      assert (St' : vasked cb (VBegin x0 :: flat_map revents rs) \/ (length rs = smax maxIterations /\ Forall (g_complete inner) rs)).
      { destruct St as [St|St]; [left|right; exact St]. apply askb_spec in St. rewrite Et, rev_involutive in St. exact St. }
      destruct exact.
      + destruct (eval_pass f cb b fuel (h_x s) 0 n0 false (h_tr s)) as [[[v u] tr]|] eqn:P; [|discriminate]. intros [= <-].
        apply (eval_pass_ok f cb b Hb) in P. destruct P as (lf & -> & S & V & I1 & _). specialize (I1 I).
        assert (Sp : split_of n b (map fst lf)) by (destruct S as (S1 & S2); rewrite Nat.sub_0_r in S1; split; assumption).
        cbn [vr_val vr_x vr_tr vr_conv vr_st]. split; [|split; [reflexivity|]].
        * exists rs, (h_x0 s), (h_last s), [], lf. rewrite Hlim. sp; auto.
          rewrite Et. replace (rev (evs_of (h_x s) lf) ++ rev (kpre rs)) with (rev (kpre rs ++ evs_of (h_x s) lf)) by (rewrite rev_app_distr; reflexivity).
          refine (eq_trans (rev_kpre_end rs (h_x s) _) _). reflexivity.
        * apply (Inv_end f cb b Hb). assumption.
      + intros [= <-]. cbn [vr_val vr_x vr_tr vr_conv vr_st]. split; [|split; [reflexivity|]].
        * exists rs, (h_x0 s), (h_last s), [], []. rewrite Hlim. sp; auto.
          rewrite Et. replace (kpre rs) with (kpre rs ++ []) by apply app_nil_r.
          refine (eq_trans (rev_kpre_end rs (h_x s) _) _). reflexivity.
        * apply (Inv_end f cb b Hb). assumption.
    - destruct Q as (rs & l & Et & Er & Ln & Sp & Eo & Cv & I). intros [= <-]. cbn [vr_val vr_x vr_tr vr_conv vr_st]. split; [|split; [reflexivity|]].
      + exists rs, (h_x0 s), (h_last s), l, []. rewrite Hlim. sp; auto; try lia.
        rewrite Et. refine (eq_trans (rev_kpre_end rs (h_x s) _) _). reflexivity.
      + apply (Inv_end f cb b Hb). assumption.
  Qed.

  Lemma katyusha_returns fuel : limit maxIterations < fuel -> n <= fuel -> inner < fuel -> exists r, run fuel = Ret r.
  Proof.
    intros L1 L2 L3. unfold katyusha. destruct (Nat.eqb_spec b 0) as [?|_]; [lia|].
    assert (Hlim : limit maxIterations = smax maxIterations) by (destruct maxIterations; reflexivity). rewrite Hlim in L1.
    set (s0 := {| h_x := x0; h_x0 := x0; h_y := x0; h_z := x0; h_last := nmax; h_over := n0; h_term := false; h_i := 0; h_tr := [VBegin x0] |}).
    assert (P0 : HP s0) by (exists []; cbn; sp; auto; try discriminate; lia).
    destruct (loop_terminates (hb fuel inner) HP (fun s => smax maxIterations - h_i s)) with (fuel := fuel) (s := s0) as (e & He).
    - intros s Hs. pose proof (hbody_ok fuel s Hs) as B. unfold hbody in *.
      destruct ((h_i s <? smax maxIterations) && negb (h_term s)) eqn:Cnd; cbn [negb] in *; [|exact Logic.I].
      apply andb_prop in Cnd. destruct Cnd as (C1 & _). apply Nat.ltb_lt in C1.
      destruct eval_pass as [[[over term] tr]|]; [|exact Logic.I].
      destruct (nisnan over || nisinf over || nlt (nabs (nsub (h_last s) over)) tol); [exact Logic.I|].
      destruct full_gradient as [[[full term2] tr2]|]; [|exact Logic.I].
      destruct (loop _ fuel _) as [t|[t|]]; try exact Logic.I. split; [exact B|]. cbn [h_i]. lia.
    - exact P0.
    - cbn [h_i s0]. lia.
    - rewrite He.
      assert (Q : HQ e /\ e <> HMore).
      { refine (loop_inv_done _ HP (fun e => HQ e /\ e <> HMore) _ _ _ _ P0 He).
        intros s Hs. pose proof (hbody_ok fuel s Hs) as B. unfold hbody in *.
        destruct ((h_i s <? smax maxIterations) && negb (h_term s)); cbn [negb] in *; [|split; [exact B|discriminate]].
        destruct (eval_pass_more f cb b Hb fuel (h_x0 s) 0 n0 (h_term s) (h_tr s)) as [[[over term] tr] E1]; [lia|]. rewrite E1 in *.
        destruct (nisnan over || nisinf over || nlt (nabs (nsub (h_last s) over)) tol); [split; [exact B|discriminate]|].
        destruct (full_gradient_more f cb b Hb Before fuel (h_x s) (h_x0 s) term tr) as [[[full term2] tr2] E2]; [exact L2|]. rewrite E2 in *.
        destruct fuel as [|fl]; [lia|].
        match goal with |- context [loop (kb _ ?a ?fu) _ ?st] =>
          destruct (kinner_more fl inner a fu st) as (o & Eo); [cbn [k_f]; lia|cbn [k_cur]; lia|]; rewrite Eo in * end.
        destruct o as [t|]; [|split; [exact B|discriminate]]. exact B. }
      destruct Q as (Q & NM). destruct e as [s|s| |]; try congruence; [|eauto|destruct Q].
      destruct exact; [|eauto].
      destruct (eval_pass_more f cb b Hb fuel (h_x s) 0 n0 false (h_tr s)) as [[[v u] tr] ->]; [lia|]. eauto.
  Qed.
End Kat.
