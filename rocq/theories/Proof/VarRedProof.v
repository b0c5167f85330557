(** The passes over the data (Model/VarRed.v). *)
From Coq Require Import List Arith Bool Lia.
From Verif.Base Require Import Num Vec Size Loop.
From Verif.Model Require Import Common VarRed.
From Verif.Spec Require Import SgdSpec VarRedSpec.
Import ListNotations.

Section P.
  Context {N : Num}.
  Variable f : VFun N.
  Variable cb : VCB N.
  Variable b : nat.
  Hypothesis Hb : 0 < b.
  Notation n := (vf_num f).
  Notation trace := (list (vev N)).

  (** Invariants of a history, newest event first. *)
  Definition okev (h : trace) (e : vev N) : Prop :=
    match e with
    | VEval x i c v => v = vf_eval f (shuffles h) x i c
    | VGrad x i c g g' => g = vf_grad f (shuffles h) x i c /\ g' = vc_hook cb h x g
    | VGradQ x i c g => g = vf_grad f (shuffles h) x i c
    | _ => True
    end.
  Fixpoint askb (tr : trace) : bool :=
    match tr with [] => false | e :: h => (vasks e && vc_stop cb (e :: h)) || askb h end.
  Definition is_vstep (e : vev N) : bool := match e with VStep _ _ => true | _ => false end.
  Fixpoint Inv (tr : trace) : Prop :=
    match tr with
    | [] => True
    | e :: h => okev h e /\ in_range n b e /\ (is_vstep e = true -> askb h = false) /\ Inv h
    end.

  Lemma shuffles_rev (tr : trace) : shuffles (rev tr) = shuffles tr.
  Proof.
    unfold shuffles. induction tr as [|e tr IH]; [reflexivity|]. cbn [rev]. rewrite filter_app, app_length, IH.
    cbn [filter]. destruct (is_shuffle e); cbn [length]; lia.
  Qed.
  Lemma Inv_app (a h : trace) : Inv (a ++ h) -> Inv h.
  Proof. induction a as [|e a IH]; cbn; [auto|]. intros (_ & _ & _ & H). auto. Qed.
  Lemma Inv_at (a h : trace) e : Inv (a ++ e :: h) -> okev h e /\ in_range n b e /\ (is_vstep e = true -> askb h = false).
  Proof. intros H. apply Inv_app in H. cbn in H. tauto. Qed.
  Lemma askb_spec (h : trace) : askb h = true <-> vasked cb (rev h).
  Proof.
    split.
    - induction h as [|e h IH]; cbn; [discriminate|]. intros [H|H]%orb_prop.
      + apply andb_prop in H. exists (rev h), e, []. rewrite rev_involutive. tauto.
      + destruct (IH H) as (a & e' & r & E & A & B). exists a, e', (r ++ [e]). rewrite E, <- app_assoc. auto.
    - intros (a & e & r & E & A & B). apply (f_equal (@rev _)) in E. rewrite rev_involutive, rev_app_distr in E.
      cbn [rev] in E. rewrite <- app_assoc in E. cbn in E. subst h.
      induction (rev r) as [|e' l IH]; cbn; [rewrite A, B; reflexivity|]. rewrite IH, orb_true_r. reflexivity.
  Qed.

  Lemma Inv_final (tr : trace) : Inv tr -> Forall (in_range n b) (rev tr) /\ computed f cb (rev tr) /\ honoured cb (rev tr).
  Proof.
    intros H. repeat apply conj.
    - apply Forall_rev. revert H. induction tr as [|e tr IH]; constructor; cbn in H; [tauto|apply IH; tauto].
    - intros h e rest E. apply (f_equal (@rev _)) in E. rewrite rev_involutive, rev_app_distr in E.
      cbn [rev] in E. rewrite <- app_assoc in E. cbn in E. subst tr. apply Inv_at in H. destruct H as (H & _).
      unfold okev in H. rewrite shuffles_rev in H. exact H.
    - intros h x eta rest E. apply (f_equal (@rev _)) in E. rewrite rev_involutive, rev_app_distr in E.
      cbn [rev] in E. rewrite <- app_assoc in E. cbn in E. subst tr. apply Inv_at in H. destruct H as (_ & _ & H).
      specialize (H eq_refl). intros A. rewrite <- (rev_involutive h) in A. apply askb_spec in A. congruence.
  Qed.

  Lemma seq_split a m k : k <= m -> seq a m = seq a k ++ seq (a + k) (m - k).
  Proof. intros. rewrite <- seq_app. f_equal. lia. Qed.

  Definition slice (l : list (nat * nat)) (i : nat) : Prop :=
    flat_map (fun p => seq (fst p) (snd p)) l = seq i (n - i) /\ Forall (fun p => 0 < snd p <= b) l.
  Lemma slice_cons l i j : i < n -> (j = i + Nat.min b (n - i) \/ j = i + b) -> slice l j -> slice ((i, Nat.min b (n - i)) :: l) i.
  Proof.
    intros Hi Hj (A & B). split; [|constructor; [cbn; lia|exact B]].
    cbn [flat_map fst snd]. rewrite A, (seq_split i (n - i) (Nat.min b (n - i))) by lia. f_equal.
    destruct (Nat.min_spec b (n - i)) as [[Hm E]|[Hm E]]; rewrite E in *.
    - assert (j = i + b) by lia. subst j. f_equal. lia.
    - replace (n - j) with 0 by lia. replace (n - i - (n - i)) with 0 by lia. reflexivity.
  Qed.
  Lemma slice_nil i : n <= i -> slice [] i.
  Proof. intros. split; [|constructor]. replace (n - i) with 0 by lia. reflexivity. Qed.

  Lemma eval_pass_ok fuel : forall x i acc term tr acc' term' tr',
    eval_pass f cb b fuel x i acc term tr = Some (acc', term', tr') ->
    exists l, tr' = rev (evs_of x l) ++ tr /\ slice (map fst l) i /\ acc' = fold_left nadd (map snd l) acc /\
      (Inv tr -> Inv tr') /\ (term = askb tr -> term' = askb tr').
  Proof.
    induction fuel as [|fuel IH]; intros x i acc term tr acc' term' tr'; cbn [eval_pass];
      (destruct (Nat.ltb_spec i n) as [L|L]; [|intros [= <- <- <-]; exists []; cbn; auto using slice_nil]); [discriminate|].
    intros H. apply IH in H. destruct H as (l & E & S & V & I & T).
    set (c := Nat.min b (n - i)) in *. set (v := vf_eval f (shuffles tr) x i c) in *.
    exists (((i, c), v) :: l). cbn [evs_of map fst snd rev fold_left].
    fold (evs_of x l). rewrite <- app_assoc. cbn [app]. refine (conj E (conj _ (conj V (conj _ _)))).
    - eapply slice_cons; [exact L| |exact S]. auto.
    - intros A. apply I. cbn. repeat split; auto; try discriminate; unfold c; lia.
    - intros ->. apply T. cbn. apply orb_comm.
  Qed.
  Lemma eval_pass_more fuel : forall x i acc term tr, n - i <= fuel -> exists r, eval_pass f cb b fuel x i acc term tr = Some r.
  Proof.
    induction fuel as [|fuel IH]; intros x i acc term tr L; cbn [eval_pass]; destruct (Nat.ltb_spec i n); eauto; [lia|].
    apply IH. lia.
  Qed.

  Lemma grad_at_ok x i c term tr g g' term' tr' : grad_at f cb x i c term tr = (g, g', term', tr') ->
    0 < c <= b -> i + c <= n ->
    tr' = VGrad x i c g g' :: tr /\ (Inv tr -> Inv tr') /\ (term = askb tr -> term' = askb tr').
  Proof.
    unfold grad_at. intros [= <- <- <- <-] C D. split; [reflexivity|]. split.
    - intros A. cbn. repeat split; auto; try discriminate; lia.
    - intros ->. cbn. apply orb_comm.
  Qed.

  (** the gradient events of a pass, in each mode *)
  Definition grs_mode (m : gmode) (x : list N) (l : list geval) : trace :=
    match m with
    | Quiet => map (fun p => VGradQ x (fst (fst p)) (snd (fst p)) (fst (snd p))) l
    | _ => grs_of x l
    end.
  Definition used (m : gmode) (p : @geval N) : list N := match m with Hooked => snd (snd p) | _ => fst (snd p) end.

  Lemma grad_pass_ok m fuel : forall x i acc term tr acc' term' tr',
    grad_pass f cb b m fuel x i acc term tr = Some (acc', term', tr') ->
    exists l, tr' = rev (grs_mode m x l) ++ tr /\ slice (map fst l) i /\ acc' = fold_left vadd (map (used m) l) acc /\
      (Inv tr -> Inv tr') /\ (term = askb tr -> term' = askb tr').
  Proof.
    induction fuel as [|fuel IH]; intros x i acc term tr acc' term' tr'; cbn [grad_pass];
      (destruct (Nat.ltb_spec i n) as [L|L]; [|intros [= <- <- <-]; exists []; destruct m; cbn; auto using slice_nil]); [discriminate|].
    set (c := Nat.min b (n - i)) in *.
    assert (C : 0 < c <= b) by (unfold c; lia). assert (C' : i + c <= n) by (unfold c; lia).
    destruct m; cbn [grad_at]; intros H; apply IH in H; destruct H as (l & E & S & V & I & T).
    - exists (((i, c), (vf_grad f (shuffles tr) x i c, vc_hook cb tr x (vf_grad f (shuffles tr) x i c))) :: l).
      cbn [grs_mode grs_of map fst snd rev fold_left used] in *. fold (grs_of x l) in *. rewrite <- app_assoc. cbn [app].
      refine (conj E (conj _ (conj V (conj _ _)))).
      + eapply slice_cons; [exact L| |exact S]. auto.
      + intros A. apply I. cbn. repeat split; auto; try discriminate; lia.
      + intros ->. apply T. cbn. apply orb_comm.
    - exists (((i, c), (vf_grad f (shuffles tr) x i c, vc_hook cb tr x (vf_grad f (shuffles tr) x i c))) :: l).
      cbn [grs_mode grs_of map fst snd rev fold_left used] in *. fold (grs_of x l) in *. rewrite <- app_assoc. cbn [app].
      refine (conj E (conj _ (conj V (conj _ _)))).
      + eapply slice_cons; [exact L| |exact S]. auto.
      + intros A. apply I. cbn. repeat split; auto; try discriminate; lia.
      + intros ->. apply T. cbn. apply orb_comm.
    - exists (((i, c), (vf_grad f (shuffles tr) x i c, vf_grad f (shuffles tr) x i c)) :: l).
      cbn [grs_mode map fst snd rev fold_left used] in *. rewrite <- app_assoc. cbn [app].
      refine (conj E (conj _ (conj V (conj _ _)))).
      + eapply slice_cons; [exact L| |exact S]. auto.
      + intros A. apply I. cbn. repeat split; auto; try discriminate; lia.
      + intros ->. apply T. cbn. reflexivity.
  Qed.
  Lemma grad_pass_more m fuel : forall x i acc term tr, n - i <= fuel -> exists r, grad_pass f cb b m fuel x i acc term tr = Some r.
  Proof.
    induction fuel as [|fuel IH]; intros x i acc term tr L; cbn [grad_pass]; destruct (Nat.ltb_spec i n); eauto; [lia|].
    destruct m; cbn [grad_at]; apply IH; lia.
  Qed.

  Lemma full_gradient_ok m fuel x1 x term tr full term' tr' : 0 < n ->
    full_gradient f cb b m fuel x1 x term tr = Some (full, term', tr') ->
    exists p l, tr' = rev (grs_of x1 [p] ++ grs_mode m x l) ++ tr /\ split_of n b (map fst (p :: l)) /\
      full = over_n n (fold_left vadd (map (used m) l) (snd (snd p))) /\
      (Inv tr -> Inv tr') /\ (term = askb tr -> term' = askb tr').
  Proof.
    intros Hn. unfold full_gradient. set (c := Nat.min b n).
    destruct (grad_at f cb x1 0 c term tr) as [[[g g'] t1] tr1] eqn:G.
    apply grad_at_ok in G; [|unfold c; lia|unfold c; lia]. destruct G as (-> & I1 & T1).
    destruct grad_pass as [[[s t2] tr2]|] eqn:E; [|discriminate]. intros [= <- <- <-].
    apply grad_pass_ok in E. destruct E as (l & -> & S & -> & I2 & T2).
    exists ((0, c), (g, g')), l. refine (conj _ (conj _ (conj eq_refl (conj _ _)))).
    - rewrite rev_app_distr, <- app_assoc. reflexivity.
    - cbn [map fst]. pose proof (slice_cons (map fst l) 0 c Hn) as Q. rewrite Nat.sub_0_r in Q. fold c in Q.
      destruct Q as (A & B); [left; reflexivity|exact S|]. split; [|exact B]. rewrite Nat.sub_0_r in A. exact A.
    - auto.
    - auto.
  Qed.
  Lemma full_gradient_more m fuel x1 x term tr : n <= fuel -> exists r, full_gradient f cb b m fuel x1 x term tr = Some r.
  Proof.
    intros L. unfold full_gradient. destruct grad_at as [[[g g'] t1] tr1].
    destruct (grad_pass_more m fuel x (Nat.min b n) g' t1 tr1) as [[[s t2] tr2] ->]; [lia|]. eauto.
  Qed.

  (** ---- the inner loops ---- *)
  Lemma next_cyclic cur tot : cur <= n -> 0 < n -> cur mod n = tot mod n ->
    let cur' := if cur mod n =? 0 then 0 else cur in
    let c := Nat.min b (n - cur') in
    0 < c <= b /\ cur' + c <= n /\ (cur' + c) mod n = (tot + c) mod n /\
    seq cur' c = map (fun k => k mod n) (seq tot c).
  Proof.
    intros L Hn M. cbv zeta. set (cur' := if cur mod n =? 0 then 0 else cur). set (c := Nat.min b (n - cur')).
    assert (A : cur' < n /\ cur' = tot mod n).
    { unfold cur'. destruct (Nat.eqb_spec (cur mod n) 0) as [Z|Z]; [lia|].
      assert (cur <> n) by (intros ->; rewrite Nat.mod_same in Z; lia). rewrite <- M, Nat.mod_small; lia. }
    destruct A as (A & B).
    assert (E : c <= n - cur') by (unfold c; lia).
    assert (K : forall k, k < c -> (tot + k) mod n = cur' + k).
    { intros k Hk. rewrite (Nat.div_mod tot n) by lia. rewrite <- B.
      replace (n * (tot / n) + cur' + k) with (cur' + k + (tot / n) * n) by lia.
      rewrite Nat.mod_add by lia. apply Nat.mod_small. lia. }
    repeat apply conj; try (unfold c; lia).
    - rewrite B, Nat.add_mod_idemp_l by lia. reflexivity.
    - clearbody c. clear - K. 
      assert (G : forall m j, j + m <= c ->
                seq (cur' + j) m = map (fun k => k mod n) (seq (tot + j) m)).
      { induction m as [|m IH]; intros j Hj; cbn; [reflexivity|]. rewrite K by lia. f_equal.
        rewrite <- !Nat.add_succ_r. apply IH; lia. }
      specialize (G c 0 ltac:(lia)). rewrite !Nat.add_0_r in G. exact G.
  Qed.
End P.
