(** Big-batch SGD (Model/BigBatch.v). *)
From Coq Require Import List Arith Bool Lia ZArith.
From Verif.Base Require Import Num Vec Size Loop.
From Verif.Model Require Import Common VarRed BigBatch.
From Verif.Spec Require Import SgdSpec VarRedSpec BigBatchSpec.
From Verif.Proof Require Import VarRedProof SVRGProof.
Import ListNotations.
Local Open Scope nat_scope.

Lemma iter_r {A} (h : A -> A) k x : Nat.iter k h (h x) = Nat.iter (S k) h x.
Proof. induction k as [|k IH]; [reflexivity|]. exact (f_equal h IH). Qed.

Section P.
  Context {N : Num}.
  Variable f : VFun N.
  Variable cb : BCB N.
  Variable pol : bpolicy N.
  Variables (maxIterations : nat) (tol : N) (shuffle exact : bool).
  Variable norm : list N -> N.
  Variable offset : nat -> nat.
  Hypothesis Hn : 0 < vf_num f.
  Notation n := (vf_num f).
  Notation trace := (list (bev N)).
  Notation lim := (amax maxIterations).

  (** ---- histories, newest event first ---- *)
  Definition bokev (h : trace) (e : bev N) : Prop :=
    match e with
    | BEval x i c v | BEvalQ x i c v => v = vf_eval f (bshuffles h) x i c
    | BGrad x i g g' => g = vf_grad f (bshuffles h) x i 1 /\ g' = bc_hook cb h x g
    | BGradQ x i g => g = vf_grad f (bshuffles h) x i 1
    | _ => True
    end.
  Fixpoint baskb (tr : trace) : bool :=
    match tr with [] => false | e :: h => (basks e && bc_stop cb (e :: h)) || baskb h end.
  Definition is_bstep (e : bev N) : bool := match e with BStep _ _ => true | _ => false end.
  Fixpoint BInv (tr : trace) : Prop :=
    match tr with
    | [] => True
    | e :: h => bokev h e /\ bin_range n e /\ (is_bstep e = true -> baskb h = false) /\ BInv h
    end.
  Lemma bshuffles_rev (tr : trace) : bshuffles (rev tr) = bshuffles tr.
  Proof.
    unfold bshuffles. induction tr as [|e tr IH]; [reflexivity|]. cbn [rev]. rewrite filter_app, app_length, IH.
    cbn [filter]. destruct e; cbn [length]; lia.
  Qed.
  Lemma BInv_at (a h : trace) e : BInv (a ++ e :: h) -> bokev h e /\ bin_range n e /\ (is_bstep e = true -> baskb h = false).
  Proof. induction a as [|e' a IH]; cbn; tauto. Qed.
  Lemma baskb_spec (h : trace) : baskb h = true <-> basked cb (rev h).
  Proof.
    split.
    - induction h as [|e h IH]; cbn; [discriminate|]. intros [H|H]%orb_prop.
      + apply andb_prop in H. exists (rev h), e, []. rewrite rev_involutive. tauto.
      + destruct (IH H) as (a & e' & r & E & A & B). exists a, e', (r ++ [e]). rewrite E, <- app_assoc. auto.
    - intros (a & e & r & E & A & B). apply (f_equal (@rev _)) in E. rewrite rev_involutive, rev_app_distr in E.
      cbn [rev] in E. rewrite <- app_assoc in E. cbn in E. subst h.
      induction (rev r) as [|e' l IH]; cbn; [rewrite A, B; reflexivity|]. rewrite IH, orb_true_r. reflexivity.
  Qed.
  Lemma BInv_final (tr : trace) : BInv tr -> Forall (bin_range n) (rev tr) /\ bcomputed f cb (rev tr) /\ bhonoured cb (rev tr).
  Proof.
    intros H. repeat apply conj.
    - apply Forall_rev. revert H. induction tr as [|e tr IH]; constructor; cbn in H; [tauto|apply IH; tauto].
    - intros h e rest E. apply (f_equal (@rev _)) in E. rewrite rev_involutive, rev_app_distr in E.
      cbn [rev] in E. rewrite <- app_assoc in E. cbn in E. subst tr. apply BInv_at in H. destruct H as (H & _).
      unfold bokev in H. rewrite bshuffles_rev in H. exact H.
    - intros h x eta rest E. apply (f_equal (@rev _)) in E. rewrite rev_involutive, rev_app_distr in E.
      cbn [rev] in E. rewrite <- app_assoc in E. cbn in E. subst tr. apply BInv_at in H. destruct H as (_ & _ & H).
      specialize (H eq_refl). intros A. rewrite <- (rev_involutive h) in A. apply baskb_spec in A. congruence.
  Qed.

  (** [tr'] extends [tr] by [l] (oldest first), keeping the invariants; [term] follows the answers. *)
  Definition ext (tr tr' l : trace) : Prop := tr' = rev l ++ tr /\ (BInv tr -> BInv tr').
  Lemma ext_refl tr : ext tr tr [].
  Proof. split; auto. Qed.
  Lemma ext_trans tr tr1 tr2 l1 l2 : ext tr tr1 l1 -> ext tr1 tr2 l2 -> ext tr tr2 (l1 ++ l2).
  Proof. intros (-> & A) (-> & B). split; [rewrite rev_app_distr, app_assoc; reflexivity|auto]. Qed.
  Lemma ext_quiet tr tr' l : ext tr tr' l -> Forall (fun e => basks e = false) l -> baskb tr' = baskb tr.
  Proof.
    intros (-> & _) F. apply Forall_rev in F. induction (rev l) as [|e r IH]; [reflexivity|].
    apply Forall_cons_iff in F. destruct F as (F1 & F2). cbn. rewrite F1. apply IH. exact F2.
  Qed.

  (** ---- the gradients of a batch ---- *)
  Notation gl := (list (nat * (list N * list N))).
  Definition sums (l : gl) (a : list N) : list N := fold_left vadd (map (fun p => snd (snd p)) l) a.
  Lemma bgrad_ok x i term tr g' term' tr' : bgrad f cb x i term tr = (g', term', tr') -> i < n -> term = baskb tr ->
    exists g, ext tr tr' (grad_events x [(i, (g, g'))]) /\ term' = baskb tr'.
  Proof.
    unfold bgrad. intros [= <- <- <-] Hi ->. eexists. split; [split; [reflexivity|]|].
    - intros I. cbn. repeat split; auto; discriminate.
    - cbn. apply orb_comm.
  Qed.
  Lemma sample_ok x i k s : i < n -> e_term s = baskb (e_tr s) ->
    let s' := sample f cb norm x i k s in
    exists g g', ext (e_tr s) (e_tr s') (grad_events x [(i, (g, g'))]) /\ e_g s' = vadd (e_g s) g' /\ e_term s' = baskb (e_tr s').
  Proof.
    intros Hi T. unfold sample. destruct (bgrad f cb x i (e_term s) (e_tr s)) as [[g' term'] tr'] eqn:G.
    apply bgrad_ok in G; [|exact Hi|exact T]. destruct G as (g & X & T'). exists g, g'. auto.
  Qed.
  Lemma samples_ok x count : forall i k s, i + count <= n -> e_term s = baskb (e_tr s) ->
    let s' := samples f cb norm x i k count s in
    exists l, map fst l = seq i count /\ ext (e_tr s) (e_tr s') (grad_events x l) /\ e_g s' = sums l (e_g s) /\ e_term s' = baskb (e_tr s').
  Proof.
    induction count as [|count IH]; intros i k s L T; cbn [samples].
    - exists []. split; [reflexivity|]. split; [apply ext_refl|]. auto.
    - destruct (sample_ok x i k s) as (g & g' & X & E & T'); [lia|exact T|].
      destruct (IH (S i) (S k) _ ltac:(lia) T') as (l & A & B & C & D). cbv zeta in *.
      exists ((i, (g, g')) :: l). cbn [map fst seq]. rewrite A. split; [reflexivity|].
      split; [exact (ext_trans _ _ _ _ _ X B)|]. split; [|exact D]. rewrite C, E. reflexivity.
  Qed.

  Lemma grow_ok x cf fuel : forall bs c k gB r s bs' c' gB' r' s',
    grow f cb norm offset fuel x cf bs c k gB r s = Some (bs', c', gB', r', s') -> 0 < bs -> e_term s = baskb (e_tr s) ->
    exists gr l, Forall (fun o => 0 < o) gr /\ bs' = bs + list_sum gr /\ c' = c + list_sum gr /\
      r' = (match gr with [] => r | _ => true end) /\ (gr <> [] -> cf + bs + list_sum gr < n) /\
      map fst l = grown cf bs gr /\ ext (e_tr s) (e_tr s') (grad_events x l) /\ e_g s' = sums l (e_g s) /\ e_term s' = baskb (e_tr s') /\
      gB' = (match gr with [] => gB | _ => sqn norm (over (e_g s') bs') end).
  Proof.
    induction fuel as [|fuel IH]; intros bs c k gB r s bs' c' gB' r' s' H Hb T; cbn [grow] in H;
      (destruct (noisy gB (e_v s) bs); [set (o := match offset bs with O => 1 | o => o end) in *; destruct (Nat.leb_spec n (cf + bs + o)) as [L|L]|]).
    1,3,4,6: injection H as <- <- <- <- <-; exists [], []; cbn; sp; auto using ext_refl; try congruence; lia.
    1: discriminate.
    assert (Ho : 0 < o) by (unfold o; destruct (offset bs); lia).
    destruct (Nat.ltb_spec (cf + bs + o - 1) n) as [L'|L']; [|lia].
    destruct (samples_ok x o (cf + bs - 1) (k + 1) s) as (l1 & A & B & C & D); [lia|exact T|]. cbv zeta in *.
    apply IH in H; [|lia|exact D]. destruct H as (gr & l & F & Eb & Ec & Er & Lt & M & X & G & T' & EB).
    exists (o :: gr), (l1 ++ l). cbn [list_sum fold_right grown]. fold (list_sum gr). sp.
    - constructor; assumption.
    - lia.
    - lia.
    - destruct gr; exact Er.
    - intros _. destruct gr as [|a gr]; [cbn; lia|]. specialize (Lt ltac:(discriminate)). lia.
    - rewrite map_app, A, M. reflexivity.
    - unfold grad_events. rewrite map_app. eapply ext_trans; eassumption.
    - rewrite G, C. unfold sums. rewrite map_app, fold_left_app. reflexivity.
    - exact T'.
    - destruct gr; [|exact EB]. cbn in Eb, G. rewrite EB. destruct l; [|destruct l; discriminate].
      rewrite G, Eb, Nat.add_0_r. reflexivity.
  Qed.
  Lemma grow_some x cf fuel : forall bs c k gB r s, n - (cf + bs) <= fuel -> exists q, grow f cb norm offset fuel x cf bs c k gB r s = Some q.
  Proof.
    induction fuel as [|fuel IH]; intros bs c k gB r s L; cbn [grow]; (destruct (noisy gB (e_v s) bs); [|eauto]);
      set (o := match offset bs with O => 1 | o => o end); (assert (Ho : 0 < o) by (unfold o; destruct (offset bs); lia));
      destruct (Nat.leb_spec n (cf + bs + o)); eauto; [lia|].
    apply IH. lia.
  Qed.

  (** ---- the policies ---- *)
  Section Batch.
  Variables cf c : nat.
  Hypothesis Hc : 0 < c.
  Hypothesis Hcf : cf + c <= n.
  Lemma quiet_ok x tr v tr' : quiet f x cf c tr = (v, tr') -> ext tr tr' [BEvalQ x cf c v] /\ tr' = BEvalQ x cf c v :: tr.
  Proof. unfold quiet. intros [= <- <-]. split; [split; [reflexivity|]|reflexivity]. intros I. cbn. repeat split; auto; discriminate. Qed.
  Lemma bgradq_ok x i tr g tr' : bgradq f x i tr = (g, tr') -> i < n -> ext tr tr' [BGradQ x i g].
  Proof. unfold bgradq. intros [= <- <-] Hi. split; [reflexivity|]. intros I. cbn. repeat split; auto; discriminate. Qed.

  Lemma search_ok fuel shrink sp x g gB obj : forall eta tr eta' tr',
    search f fuel shrink sp x g gB cf c obj eta tr = Some (eta', tr') ->
    exists l k v1, ext tr tr' l /\ Forall (on_batch cf c) l /\ eta' = Nat.iter k shrink eta /\
      In (BEvalQ (vsub x (vscale eta' g)) cf c v1) l /\ nlt (nsub obj (nmul (nmul sp eta') gB)) v1 = false /\
      forall j, j < k -> let e := Nat.iter j shrink eta in
        exists v, In (BEvalQ (vsub x (vscale e g)) cf c v) l /\ nlt (nsub obj (nmul (nmul sp e) gB)) v = true.
  Proof.
    induction fuel as [|fuel IH]; intros eta tr eta' tr' H; cbn [search] in H;
      destruct (quiet f (vsub x (vscale eta g)) cf c tr) as [v tr1] eqn:Q; apply quiet_ok in Q; destruct Q as (X & E);
      destruct (nlt (nsub obj (nmul (nmul sp eta) gB)) v) eqn:C.
    1: discriminate.
    1,3: injection H as <- <-; exists [BEvalQ (vsub x (vscale eta g)) cf c v], 0, v; sp; auto; [repeat constructor|left; reflexivity|lia].
    apply IH in H. destruct H as (l & k & v1 & X1 & F & K & I & A & B).
    exists (BEvalQ (vsub x (vscale eta g)) cf c v :: l), (S k), v1. sp.
    - exact (ext_trans _ _ _ _ _ X X1).
    - constructor; [cbn; auto|exact F].
    - rewrite K. apply iter_r.
    - right. exact I.
    - exact A.
    - intros [|j] Hj; [exists v; split; [left; reflexivity|exact C]|].
      destruct (B j ltac:(lia)) as (w & Iw & Cw). rewrite iter_r in Iw, Cw. exists w. split; [right; exact Iw|exact Cw].
  Qed.
  Lemma backtrack_ok fuel shrink sp x g gB eta tr eta' tr' :
    backtrack f fuel shrink sp x g gB cf c eta tr = Some (eta', tr') ->
    exists l, ext tr tr' l /\ Forall (on_batch cf c) l /\ first_armijo l shrink sp x g cf c eta eta' gB.
  Proof.
    unfold backtrack. destruct (quiet f x cf c tr) as [v tr1] eqn:Q. apply quiet_ok in Q. destruct Q as (X & _). intros H.
    apply search_ok in H. destruct H as (l & k & v1 & X1 & F & K & I & A & B). exists (BEvalQ x cf c v :: l). sp.
    - exact (ext_trans _ _ _ _ _ X X1).
    - constructor; [cbn; auto|exact F].
    - exists k, v. sp; [exact K|left; reflexivity|exists v1; split; [right; exact I|exact A]|].
      intros j Hj e. destruct (B j Hj) as (w & Iw & Cw). exists w. split; [right; exact Iw|exact Cw].
  Qed.

  Lemma regrad_ok x prev count : forall i k s, cf <= i -> i + count <= cf + c ->
    let s' := regrad f norm x prev i k count s in
    exists l gs, ext (o_tr s) (o_tr s') l /\ Forall (on_batch cf c) l /\ map fst gs = seq i count /\
      Forall (fun p => In (BGradQ x (fst p) (snd p)) l) gs /\ o_g s' = fold_left vadd (map snd gs) (o_g s).
  Proof.
    induction count as [|count IH]; intros i k s L1 L2; cbn [regrad].
    - exists [], []. sp; auto using ext_refl.
    - destruct (bgradq f x i (o_tr s)) as [g tr1] eqn:G1. apply bgradq_ok in G1; [|lia].
      destruct (bgradq f prev i tr1) as [gp tr2] eqn:G2. apply bgradq_ok in G2; [|lia].
      match goal with |- context [regrad _ _ _ _ _ _ _ ?s1] => destruct (IH (S i) (S k) s1) as (l & gs & X & F & M & I & E); [lia|lia|] end.
      cbv zeta in *. exists (BGradQ x i g :: BGradQ prev i gp :: l), ((i, g) :: gs). sp.
      + exact (ext_trans _ _ _ _ _ G1 (ext_trans _ _ _ _ _ G2 X)).
      + constructor; [cbn; lia|]. constructor; [cbn; lia|exact F].
      + cbn [map fst seq]. rewrite M. reflexivity.
      + constructor; [left; reflexivity|]. revert I. apply Forall_impl. intros p H. right. right. exact H.
      + exact E.
  Qed.
  Lemma on_batch_quiet l : Forall (on_batch cf c) l -> Forall (fun e : bev N => basks e = false) l.
  Proof. apply Forall_impl. intros e H. destruct e; cbn in *; auto; contradiction. Qed.
  End Batch.
  Lemma armijo_incl (l l' : trace) sh sp x g cf c eta0 eta gB : first_armijo l sh sp x g cf c eta0 eta gB -> incl l l' -> first_armijo l' sh sp x g cf c eta0 eta gB.
  Proof.
    intros (k & v0 & A & B & (v1 & C & D) & E) I. exists k, v0. sp; auto; [exists v1; auto|].
    intros j Hj e. destruct (E j Hj) as (w & F & G). exists w. auto.
  Qed.

  (** the spec's view of a policy call *)
  Lemma update_ok fuel (p : bpos) (t0 : bstep) bs c gB tr prev' eta' x1 g1 tr' :
    c = u_c n lim p t0 -> 0 < c -> p_f p + c <= n -> gB = mean_sq norm c (u_sum t0) ->
    update f pol norm fuel (p_prev p) (p_eta p) (p_x p) (u_sum t0) gB (p_f p) bs c (match u_grow t0 with [] => false | _ => true end) tr
      = Some (prev', eta', x1, g1, tr') ->
    exists l, ext tr tr' l /\ Forall (on_batch (p_f p) c) l /\
      let t := {| u_grow := u_grow t0; u_g := u_g t0; u_pol := l; u_x1 := x1; u_g1 := g1; u_val := u_val t0 |} in
      policy_ok n lim norm pol p t eta' prev'.
  Proof.
    intros Ec Hc Hcf EB H. unfold update in H. destruct pol as [sp|bts sp] eqn:Ep.
    - destruct backtrack as [[e tr1]|] eqn:Bk; [|discriminate]. injection H as <- <- <- <- <-.
      apply backtrack_ok in Bk; [|exact Hc|exact Hcf]. destruct Bk as (l & X & F & A). exists l. sp; auto.
      unfold policy_ok, u_c, u_sum in *. cbn [u_grow u_g u_pol u_x1 u_g1]. rewrite <- Ec, <- EB. sp; auto.
      destruct (u_grow t0); exact A.
    - destruct backtrack as [[e1 tr1]|] eqn:Bk; [|discriminate].
      apply backtrack_ok in Bk; [|exact Hc|exact Hcf]. destruct Bk as (l1 & X1 & F1 & A1).
      set (xn := vsub (p_x p) (vscale e1 (u_sum t0))) in *.
      set (pv := match p_prev p with [] => map (fun _ => n0) (p_x p) | _ => p_prev p end) in *.
      destruct (bgradq f xn (p_f p) tr1) as [g2 tr2] eqn:G2. apply bgradq_ok in G2; [|lia].
      destruct (bgradq f pv (p_f p) tr2) as [g3 tr3] eqn:G3. apply bgradq_ok in G3; [|lia].
      match type of H with context [regrad ?a ?b ?c0 ?d ?e ?h ?i ?s] =>
        destruct (regrad_ok (p_f p) c Hc Hcf c0 d i e h s) as (l4 & gs & X4 & F4 & M4 & I4 & E4); [lia|lia|] end.
      cbv zeta in *. cbn [o_tr o_g] in X4, E4.
      destruct backtrack as [[e2 tr5]|] eqn:Bk2; [|discriminate].
      apply backtrack_ok in Bk2; [|exact Hc|exact Hcf]. destruct Bk2 as (l5 & X5 & F5 & A5).
      injection H as <- <- <- <- <-.
      set (l := l1 ++ ([BGradQ xn (p_f p) g2] ++ ([BGradQ pv (p_f p) g3] ++ (l4 ++ l5)))).
      assert (Xl : ext tr tr5 l) by exact (ext_trans _ _ _ _ _ X1 (ext_trans _ _ _ _ _ G2 (ext_trans _ _ _ _ _ G3 (ext_trans _ _ _ _ _ X4 X5)))).
      assert (Fl : Forall (on_batch (p_f p) c) l).
      { unfold l. repeat (apply Forall_app; split); auto; repeat constructor; cbn; lia. }
      exists l. sp; auto. unfold policy_ok, u_c, u_sum in *. cbn [u_grow u_g u_pol u_x1 u_g1]. rewrite <- Ec. split; [exact Fl|].
      exists e1, ((p_f p, g2) :: gs). sp.
      + reflexivity.
      + reflexivity.
      + rewrite <- EB. eapply armijo_incl; [exact A1|]. unfold l. apply incl_appl, incl_refl.
      + cbn [map fst]. rewrite M4, Nat.add_1_r. destruct c as [|c']; [lia|]. cbn [seq]. rewrite Nat.sub_0_r || cbn. rewrite ?Nat.sub_0_r. reflexivity.
      + unfold l. constructor; [apply in_or_app; right; left; reflexivity|]. revert I4. apply Forall_impl. intros q Hq.
        apply in_or_app. right. apply (in_or_app [_] _). right. apply (in_or_app [_] _). right. apply in_or_app. left. exact Hq.
      + rewrite E4. reflexivity.
      + eexists. eapply armijo_incl; [exact A5|]. unfold l. do 4 apply incl_appr. apply incl_refl.
  Qed.

  (** ---- the main loop ---- *)
  Variables (b0 : nat) (eta0 : N) (prev0 x0 : list N).
  Hypothesis Hb : 0 < b0.
  Notation start := (bstart b0 eta0 prev0 x0).
  Notation brun := (brun n lim tol norm pol).
  Notation events := (brun_events n lim shuffle).
  Notation step_ok := (step_ok n lim norm pol).

  Lemma brun_snoc l : forall s s1 t s2, brun s l s1 -> step_ok s1 t s2 -> (ends n lim s1 t = true -> converged_at tol s1 t = false) ->
    brun s (l ++ [(t, s2)]) s2.
  Proof.
    induction l as [|[t' m] l IH]; intros s s1 t s2 R St Cv; cbn [app BigBatchSpec.brun] in *; [subst s1; auto|].
    destruct R as (A & B & C). split; [exact A|split; [exact B|]]. eapply IH; eassumption.
  Qed.
  Lemma events_snoc l : forall s s1 t s2, brun s l s1 ->
    events s (l ++ [(t, s2)]) = events s l ++ move_events n lim s1 t s2 ++ epoch_events n lim shuffle s1 t.
  Proof.
    induction l as [|[t' m] l IH]; intros s s1 t s2 R; cbn [app BigBatchSpec.brun brun_events] in *.
    - subst s1. rewrite app_nil_r. reflexivity.
    - destruct R as (A & B & C). rewrite (IH _ _ _ _ C), <- !app_assoc. reflexivity.
  Qed.

  Definition same (s : @bst N) (p : bpos) : Prop :=
    b_x s = p_x p /\ b_prev s = p_prev p /\ b_eta s = p_eta p /\ b_bs s = p_bs p /\ b_i s = p_i p /\ b_cf s = p_f p /\
    b_ep s = p_k p /\ b_over s = p_over p /\ b_last s = p_last p.
  Definition bpre l : trace := BBegin x0 :: events start l.
  Definition BP (s : @bst N) : Prop :=
    exists l p, brun start l p /\ same s p /\ b_tr s = rev (bpre l) /\ (b_i s < lim -> b_cf s < n) /\ 0 < b_bs s /\
      BInv (b_tr s) /\ b_term s = baskb (b_tr s).
  Definition BQ (e : @bexit N) : Prop :=
    match e with
    | BBad => False
    | BMore => True
    | BConv s => exists l p t p', brun start l p /\ step_ok p t p' /\ ends n lim p t = true /\ converged_at tol p t = true /\
        b_tr s = rev (bpre l ++ move_events n lim p t p' ++ [BEndEpoch (p_k p) (ndiv (nadd (p_over p) (u_val t)) (nofnat n))]) /\
        b_over s = nadd (p_over p) (u_val t) /\ BInv (b_tr s) /\
        b_x s = p_x p' /\ b_prev s = p_prev p' /\ b_eta s = p_eta p' /\ b_bs s = p_bs p'
    | BDone s => exists l p gr gs, brun start l p /\ b_tr s = rev (bpre l ++ grad_events (p_x p) gs) /\
        (gs = [] /\ gr = [] \/ batch_ok n lim p gr gs /\ 0 < first_batch n lim p) /\
        b_x s = p_x p /\ b_prev s = p_prev p /\ b_eta s = p_eta p /\ b_bs s = p_bs p + list_sum gr /\ b_over s = p_over p /\
        (baskb (b_tr s) = true \/ gs = [] /\ lim <= p_i p) /\ BInv (b_tr s) /\ 0 < b_bs s
    end.

  Lemma bbody_ok fuel s : BP s -> match bbody f cb pol maxIterations tol shuffle norm offset fuel s with inl s' => BP s' | inr e => BQ e end.
  Proof.
    intros (l & p & R & (Sx & Sp & Se & Sb & Si & Sf & Sk & So & Sl) & Et & Lc & Pb & I & T). unfold bbody.
    destruct ((b_i s <? lim) && negb (b_term s)) eqn:Cnd; cbn [negb].
    2:{ exists l, p, [], []. cbn [grad_events map list_sum fold_right]. rewrite app_nil_r, Nat.add_0_r. sp; auto.
        destruct (b_term s) eqn:Bt; [left; congruence|]. cbn [negb] in Cnd. rewrite andb_true_r in Cnd. apply Nat.ltb_ge in Cnd.
        right. split; [reflexivity|lia]. }
    apply andb_prop in Cnd. destruct Cnd as (C1 & C2). apply Nat.ltb_lt in C1. apply negb_true_iff in C2. specialize (Lc C1).
    destruct (Nat.eqb_spec n 0) as [Z|_]; [lia|].
    set (c0 := Nat.min (Nat.min (b_bs s) (lim - b_i s)) (n - b_cf s)).
    assert (Ec0 : c0 = first_batch n lim p) by (unfold c0, first_batch; rewrite Sb, Si, Sf; reflexivity).
    assert (Pc0 : 0 < c0) by (unfold c0; lia).
    destruct (bgrad f cb (b_x s) (b_cf s) (b_term s) (b_tr s)) as [[g1' term] tr1] eqn:G.
    apply bgrad_ok in G; [|exact Lc|exact T]. destruct G as (g1 & X1 & T1).
    match goal with |- context [samples f cb norm ?a ?i ?k ?m ?s0] =>
      destruct (samples_ok a m i k s0) as (l1 & M1 & X2 & E2 & T2); [unfold c0; lia|exact T1|]; set (e1 := samples f cb norm a i k m s0) in * end.
    cbn [e_tr e_g] in X2, E2.
    assert (Q : exists q, (if c0 =? b_bs s then grow f cb norm offset n (b_x s) (b_cf s) (b_bs s) c0 (Nat.max 1 c0) (sqn norm (over (e_g e1) c0)) false e1
                           else Some (b_bs s, c0, sqn norm (over (e_g e1) c0), false, e1)) = Some q).
    { destruct (c0 =? b_bs s); [apply grow_some; lia|eauto]. }
    destruct Q as ([[[[bs c] gB] r] e2] & Q). rewrite Q.
    assert (K : exists gr l2, Forall (fun o => 0 < o) gr /\ bs = b_bs s + list_sum gr /\ c = c0 + list_sum gr /\
      r = (match gr with [] => false | _ => true end) /\ (gr <> [] -> c0 = b_bs s /\ b_cf s + b_bs s + list_sum gr < n) /\
      map fst l2 = grown (b_cf s) (b_bs s) gr /\ ext (e_tr e1) (e_tr e2) (grad_events (b_x s) l2) /\ e_g e2 = sums l2 (e_g e1) /\ e_term e2 = baskb (e_tr e2) /\
      gB = sqn norm (over (e_g e2) c)).
    { destruct (Nat.eqb_spec c0 (b_bs s)) as [Eq|Ne].
      - apply grow_ok in Q; [|exact Pb|exact T2]. destruct Q as (gr & l2 & A1 & A2 & A3 & A4 & A5 & A6 & A7 & A8 & A9 & A10).
        exists gr, l2. sp; auto. rewrite A10. destruct gr as [|o gr].
        + cbn in A3, A6. destruct l2; [|destruct l2; discriminate]. rewrite A8, A3, Nat.add_0_r. reflexivity.
        + rewrite A2, A3, Eq. reflexivity.
      - injection Q as <- <- <- <- <-. exists [], []. cbn. sp; auto using ext_refl; try congruence. }
    clear Q. destruct K as (gr & l2 & Fg & Ebs & Ec & Er & Lg & M2 & X3 & E3 & T3 & EB).
    set (gs := (b_cf s, (g1, g1')) :: l1 ++ l2).
    assert (Xg : ext (b_tr s) (e_tr e2) (grad_events (p_x p) gs)).
    { unfold gs. rewrite <- Sx.
      assert (Eg : grad_events (b_x s) ((b_cf s, (g1, g1')) :: l1 ++ l2) =
                   grad_events (b_x s) [(b_cf s, (g1, g1'))] ++ (grad_events (b_x s) l1 ++ grad_events (b_x s) l2)).
      { unfold grad_events. cbn [map app]. f_equal. apply map_app. }
      rewrite Eg.
      exact (ext_trans _ _ _ _ _ X1 (ext_trans _ _ _ _ _ X2 X3)). }
    assert (Bok : batch_ok n lim p gr gs).
    { unfold batch_ok. rewrite <- Ec0, <- Sb, <- Sf. sp; auto. unfold gs. cbn [map fst]. rewrite map_app, M1, M2.
      destruct c0 as [|c0']; [lia|]. cbn [seq app]. rewrite Nat.sub_succ, Nat.sub_0_r. reflexivity. }
    assert (I3 : BInv (e_tr e2)) by (apply Xg; exact I).
    destruct (e_term e2) eqn:Te.
    { exists l, p, gr, gs. cbn [b_tr b_x b_prev b_eta b_bs b_over]. sp; auto; try congruence; try lia.
      - destruct Xg as (-> & _). rewrite rev_app_distr, Et. reflexivity.
      - right. split; [exact Bok|lia]. }
    assert (Hcf : b_cf s + c <= n).
    { rewrite Ec. destruct gr as [|o gr]; [cbn; unfold c0; lia|]. destruct (Lg ltac:(discriminate)) as (A & B). lia. }
    assert (Hc : 0 < c) by lia.
    set (t0 := {| u_grow := gr; u_g := gs; u_pol := []; u_x1 := []; u_g1 := []; u_val := n0 |}).
    assert (Es : e_g e2 = u_sum t0).
    { unfold u_sum, t0, gs. cbn [u_g map vtotal snd]. rewrite E3, E2, map_app, fold_left_app. reflexivity. }
    assert (Euc : c = u_c n lim p t0) by (unfold u_c, t0; cbn [u_grow]; rewrite <- Ec0; exact Ec).
    destruct update as [[[[[prev' eta'] x1] dir] tr4]|] eqn:U; [|exact Logic.I].
    rewrite Sp, Se, Sx, Es, Sf, Er in U.
    change (match gr with [] => false | _ => true end) with (match u_grow t0 with [] => false | _ => true end) in U.
    pose proof (fun A B C => update_ok fuel p t0 bs c gB (e_tr e2) prev' eta' x1 dir tr4 Euc A B C U) as K.
    destruct K as (lp & X4 & F4 & P4); [exact Hc|lia|rewrite EB, Es; reflexivity|]. cbv zeta in P4.
    set (x' := vsub x1 (vscale eta' dir)). set (tr5 := BStep x' eta' :: tr4).
    set (v := vf_eval f (bshuffles tr5) x' (b_cf s) c). set (tr6 := BEval x' (b_cf s) c v :: tr5).
    set (t := {| u_grow := gr; u_g := gs; u_pol := lp; u_x1 := x1; u_g1 := dir; u_val := v |}).
    assert (Ucp : u_c n lim p t = c) by (symmetry; exact Euc).
    assert (A4 : baskb tr4 = false).
    { rewrite (ext_quiet _ _ _ X4); [symmetry; exact T3|]. exact (on_batch_quiet _ _ _ F4). }
    assert (I4 : BInv tr4) by (apply X4; exact I3).
    assert (I6 : BInv tr6).
    { unfold tr6. cbn [BInv]. sp; cbn; auto; try discriminate; lia. }
    assert (T6 : bc_stop cb tr5 || bc_stop cb tr6 = baskb tr6).
    { change (baskb tr6) with (bc_stop cb tr6 || (bc_stop cb tr5 || baskb tr4)). rewrite A4, orb_false_r. apply orb_comm. }
    (* the position after the step *)
    set (ov := nadd (b_over s) v).
    assert (Ov : ov = nadd (p_over p) (u_val t)) by (unfold ov; rewrite So; reflexivity).
    set (p' := {| p_i := p_i p + c; p_f := if more n lim p t then 0 else p_f p + c; p_bs := bs; p_x := x'; p_prev := prev'; p_eta := eta';
                  p_k := if ends n lim p t then S (p_k p) else p_k p; p_over := if more n lim p t then n0 else ov;
                  p_last := if more n lim p t then ov else p_last p |}).
    assert (St : step_ok p t p').
    { unfold BigBatchSpec.step_ok. rewrite Ucp, <- Ov. cbn [p' p_i p_f p_bs p_x p_prev p_eta p_k p_over p_last]. sp; try reflexivity; auto; try lia. change (u_grow t) with gr. lia. }
    assert (Tr6 : tr6 = rev (bpre l ++ move_events n lim p t p')).
    { unfold tr6, tr5. destruct X4 as (-> & _). destruct Xg as (-> & _). rewrite Et. unfold move_events.
      cbn [p' p_x p_eta t u_g u_pol u_val]. rewrite Ucp, !rev_app_distr, Sf. cbn [rev app]. rewrite <- !app_assoc. reflexivity. }
    assert (Me : (b_cf s + c) mod n =? 0 = ends n lim p t).
    { unfold ends. rewrite Ucp, <- Sf. destruct (Nat.eqb_spec (b_cf s + c) n) as [->|Ne]; [rewrite Nat.mod_same; lia || reflexivity|].
      apply Nat.eqb_neq. rewrite Nat.mod_small; lia. }
    rewrite Me. destruct (ends n lim p t) eqn:En; cbn [negb].
    2:{ exists (l ++ [(t, p')]), p'.
        assert (Mo : more n lim p t = false) by (unfold more; rewrite En; reflexivity).
        sp.
        - eapply brun_snoc; [exact R|exact St|congruence].
        - unfold same. cbn [b_x b_prev b_eta b_bs b_i b_cf b_ep b_over b_last p' p_x p_prev p_eta p_bs p_i p_f p_k p_over p_last].
          rewrite Mo, Si, Sf, Sk, Sl. sp; reflexivity.
        - cbn [b_tr]. unfold bpre. rewrite (events_snoc _ _ _ _ _ R). unfold epoch_events. rewrite En, app_nil_r.
          rewrite app_comm_cons. exact Tr6.
        - cbn [b_i b_cf]. intros _. unfold ends in En. rewrite Ucp, <- Sf in En. apply Nat.eqb_neq in En. lia.
        - cbn [b_bs]. lia.
        - exact I6.
        - exact T6. }
    set (tr7 := BEndEpoch (b_ep s) (ndiv ov (nofnat n)) :: tr6).
    assert (I7 : BInv tr7) by (unfold tr7; cbn [BInv]; sp; cbn; auto; discriminate).
    assert (T7 : (bc_stop cb tr5 || bc_stop cb tr6) || bc_stop cb tr7 = baskb tr7).
    { change (baskb tr7) with (bc_stop cb tr7 || baskb tr6). rewrite T6. apply orb_comm. }
    destruct (nisnan ov || nisinf ov || nlt (nabs (nsub (b_last s) ov)) tol) eqn:Cv.
    { exists l, p, t, p'. cbn [b_tr b_over b_x b_prev b_eta b_bs]. sp; try reflexivity; auto.
      - unfold converged_at, converged. rewrite <- Ov, <- Sl. exact Cv.
      - unfold tr7. rewrite Tr6, Sk, app_assoc, (rev_app_distr (_ ++ _)), <- Ov. reflexivity. }
    set (tr8 := BBeginEpoch (S (b_ep s)) ov :: tr7).
    assert (I8 : BInv tr8) by (unfold tr8; cbn [BInv]; sp; cbn; auto; discriminate).
    assert (T8 : ((bc_stop cb tr5 || bc_stop cb tr6) || bc_stop cb tr7) || bc_stop cb tr8 = baskb tr8).
    { change (baskb tr8) with (bc_stop cb tr8 || baskb tr7). rewrite T7. apply orb_comm. }
    exists (l ++ [(t, p')]), p'.
    assert (Mo : more n lim p t = negb (b_i s + c =? lim)) by (unfold more; rewrite En, Ucp, Si; reflexivity).
    sp.
    - eapply brun_snoc; [exact R|exact St|]. intros _. unfold converged_at, converged. rewrite <- Ov, <- Sl. exact Cv.
    - unfold same. cbn [b_x b_prev b_eta b_bs b_i b_cf b_ep b_over b_last p' p_x p_prev p_eta p_bs p_i p_f p_k p_over p_last].
      rewrite Mo, ?En, Si, Sf, Sk, Sl. sp; reflexivity.
    - cbn [b_tr]. unfold bpre. rewrite (events_snoc _ _ _ _ _ R). unfold epoch_events. rewrite En.
      rewrite app_assoc, app_comm_cons, rev_app_distr, app_comm_cons. change (BBegin x0 :: events start l) with (bpre l). rewrite <- Tr6, <- Ov, <- Sk.
      unfold tr8, tr7. destruct shuffle; reflexivity.
    - cbn [b_i b_cf]. intros L. destruct (Nat.eqb_spec (b_i s + c) lim); cbn [negb]; lia.
    - cbn [b_bs]. lia.
    - cbn [b_tr]. destruct shuffle; [cbn [BInv]; sp; cbn; auto; discriminate|exact I8].
    - cbn [b_term b_tr]. destruct shuffle; [exact T8|exact T8].
  Qed.

  Lemma final_pass_ok fuel : forall x bs i acc tr v tr', 0 < bs -> final_pass f fuel x bs i acc tr = Some (v, tr') ->
    exists l, tr' = rev (map (fun p => BEval x (fst (fst p)) (snd (fst p)) (snd p)) l) ++ tr /\
      flat_map (fun p => seq (fst p) (snd p)) (map fst l) = seq i (n - i) /\ Forall (fun p => 0 < snd p <= bs) (map fst l) /\
      v = fold_left nadd (map snd l) acc /\ (BInv tr -> BInv tr').
  Proof.
    induction fuel as [|fuel IH]; intros x bs i acc tr v tr' P H; cbn [final_pass] in H;
      (destruct (Nat.ltb_spec i n) as [L|L]; [|injection H as <- <-; exists []; cbn; replace (n - i) with 0 by lia; repeat split; auto]); [discriminate|].
    apply IH in H; [|exact P]. destruct H as (l & E & S & F & V & I).
    set (c := Nat.min bs (n - i)) in *. set (w := vf_eval f (bshuffles tr) x i c) in *.
    exists (((i, c), w) :: l). cbn [map fst snd rev fold_left flat_map]. rewrite <- app_assoc. cbn [app]. sp.
    - exact E.
    - rewrite S. replace (n - i) with (c + (n - i - c)) at 1 by (unfold c; lia). rewrite seq_app. f_equal.
      destruct (Nat.min_spec bs (n - i)) as [[Hm Em]|[Hm Em]]; unfold c; rewrite Em.
      + f_equal. lia.
      + replace (n - (i + bs)) with 0 by lia. replace (n - i - (n - i)) with 0 by lia. reflexivity.
    - constructor; [cbn; unfold c; lia|exact F].
    - exact V.
    - intros A. apply I. cbn. repeat split; auto; try discriminate; unfold c; lia.
  Qed.

  Lemma bigbatch_ok fuel r : bigbatch f cb pol maxIterations tol shuffle exact norm offset fuel b0 eta0 prev0 x0 = Ret r ->
    exists s', bb_report n lim shuffle tol norm pol cb exact b0 eta0 prev0 x0 (br_val r) (br_tr r) (br_conv r) s' /\
      br_x r = p_x s' /\ br_prev r = p_prev s' /\ br_eta r = p_eta s' /\ br_bs r = p_bs s' /\
      Forall (bin_range n) (br_tr r) /\ bcomputed f cb (br_tr r) /\ bhonoured cb (br_tr r).
  Proof.
    unfold bigbatch. destruct (loop _ fuel _) as [s|e] eqn:Lp; [discriminate|].
    assert (Q : BQ e).
    { refine (loop_inv_done _ BP BQ (bbody_ok fuel) _ _ _ _ Lp). exists [], start. cbn. sp; auto; try discriminate. unfold same. cbn. sp; reflexivity. }
    assert (End : forall tr x, BInv tr -> Forall (bin_range n) (rev (BEnd x :: tr)) /\ bcomputed f cb (rev (BEnd x :: tr)) /\ bhonoured cb (rev (BEnd x :: tr))).
    { intros tr x I. apply BInv_final. cbn. repeat split; auto. discriminate. }
    destruct e as [s|s| |]; try discriminate; cbn [BQ] in Q.
    - destruct Q as (l & p & gr & gs & R & Et & Bk & Sx & Sp & Se & Sb & So & St & I & Pb).
      set (s' := {| p_i := p_i p; p_f := p_f p; p_bs := p_bs p + list_sum gr; p_x := p_x p; p_prev := p_prev p; p_eta := p_eta p;
                    p_k := p_k p; p_over := p_over p; p_last := p_last p |}).
      assert (St' : basked cb (BBegin x0 :: events start l ++ grad_events (p_x p) gs) \/ (gs = [] /\ lim <= p_i p)).
      { destruct St as [St|St]; [left|right; exact St]. apply baskb_spec in St. rewrite Et, rev_involutive in St. exact St. }
      destruct exact.
      + destruct final_pass as [[v tr]|] eqn:P; [|discriminate]. intros [= <-].
        apply final_pass_ok in P; [|exact Pb]. destruct P as (lf & -> & S1 & S2 & V & I1). specialize (I1 I).
        exists s'. cbn [br_val br_x br_tr br_conv br_bs br_eta br_prev]. sp; auto; try (apply End; exact I1).
        exists l, p. split; [exact R|]. exists gr, gs, lf. sp; auto.
        * rewrite Et, <- Sx. rewrite <- rev_app_distr. cbn [rev]. rewrite rev_involutive. unfold bpre. rewrite <- !app_assoc. reflexivity.
        * rewrite Nat.sub_0_r in S1. unfold split_of. cbn [s' p_bs]. rewrite <- Sb. split; assumption.
      + intros [= <-]. exists s'. cbn [br_val br_x br_tr br_conv br_bs br_eta br_prev]. sp; auto; try (apply End; exact I).
        exists l, p. split; [exact R|]. exists gr, gs, []. sp; auto.
        rewrite Et, Sx. cbn [rev map app]. rewrite rev_involutive. unfold bpre. rewrite <- !app_assoc. reflexivity.
    - destruct Q as (l & p & t & p' & R & St & En & Cv & Et & Ov & I & Sx & Sp & Se & Sb). intros [= <-].
      exists p'. cbn [br_val br_x br_tr br_conv br_bs br_eta br_prev]. sp; auto; try (apply End; exact I).
      exists l, p. split; [exact R|]. exists t. sp; auto.
      rewrite Et, Sx. cbn [rev]. rewrite rev_involutive. unfold bpre. rewrite <- !app_assoc. reflexivity.
  Qed.
End P.
