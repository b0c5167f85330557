(** IQN (Model/IQN.v): the report of a call. *)
From Coq Require Import List Arith Bool Lia.
From Verif.Base Require Import Num Vec Size Loop.
From Verif.Model Require Import Common VarRed IQN.
From Verif.Spec Require Import SgdSpec VarRedSpec IQNSpec.
From Verif.Proof Require Import VarRedProof SVRGProof.
Import ListNotations.
Local Open Scope nat_scope.

Section P.
  Context {N : Num}.
  Notation vec := (list N).
  Notation trace := (list (vev N)).
  Variable solve : nat -> (nat -> nat -> N) -> vec -> option vec.
  Variable norm : vec -> N.
  Variable f : VFun N.
  Variable cb : VCB N.
  Variables (eta : N) (b maxIterations : nat) (tol : N) (rows : nat).
  Hypothesis Hn : 0 < vf_num f.
  Hypothesis Hb : 0 < b.
  Notation n := (vf_num f).
  Notation nb := (num_batches f b).
  Notation move := (move solve f eta b rows).
  Notation still := (still norm).
  Notation visits := (visits move still).
  Notation ask := (askb cb).

  Lemma nb_bounds : 0 < nb /\ (nb - 1) * b < n <= nb * b.
  Proof.
    unfold num_batches. pose proof (Nat.div_mod n b) as D. specialize (D ltac:(lia)). pose proof (Nat.mod_upper_bound n b) as M. specialize (M ltac:(lia)).
    destruct (Nat.eqb_spec (n mod b) 0) as [E|E].
    - assert (n / b <> 0) by (intros Z; rewrite Z, E in D; lia). split; [lia|]. rewrite E in D. nia.
    - split; [lia|]. replace (S (n / b) - 1) with (n / b) by lia. nia.
  Qed.
  Lemma nb_batches : nb = batches n b.
  Proof.
    destruct nb_bounds as (A & B & C). unfold batches. apply Nat.div_unique with (n + (b - 1) - nb * b); nia.
  Qed.
  Lemma bsize_eq k : batch_size f b k = bsize n b k. Proof. reflexivity. Qed.
  Lemma bsize_range k : k < nb -> 0 < bsize n b k <= b /\ k * b + bsize n b k <= n.
  Proof. intros L. destruct nb_bounds as (A & B & C). assert (k * b <= (nb - 1) * b) by (apply Nat.mul_le_mono_r; lia). unfold bsize. lia. Qed.
  (** functions visited when j batches have been *)
  Definition seen (j : nat) : nat := if j =? nb then n else if j =? nb - 1 then n - bsize n b 0 else j * b.
  Lemma seen_0 : seen 0 = 0.
  Proof.
    destruct nb_bounds as (A & B & C). unfold seen. destruct (Nat.eqb_spec 0 nb) as [|_]; [lia|].
    destruct (Nat.eqb_spec 0 (nb - 1)); [|lia]. unfold bsize. assert (nb = 1) by lia. nia.
  Qed.
  Lemma seen_lt j : j < nb -> seen j < n.
  Proof.
    intros L. pose proof (bsize_range 0 ltac:(lia)) as R0. destruct nb_bounds as (A & B & C). unfold seen.
    destruct (Nat.eqb_spec j nb) as [|_]; [lia|]. destruct (Nat.eqb_spec j (nb - 1)) as [|Nj]; [lia|].
    assert (j * b <= (nb - 1) * b) by (apply Nat.mul_le_mono_r; lia). lia.
  Qed.
  Lemma seen_S j : j < nb -> seen (j + 1) = seen j + bsize n b ((j + 1) mod nb).
  Proof.
    intros L. destruct nb_bounds as (A & B & C). unfold seen.
    destruct (Nat.eqb_spec j nb) as [|_]; [lia|]. destruct (Nat.eqb_spec (j + 1) nb) as [E|E].
    - destruct (Nat.eqb_spec j (nb - 1)) as [_|]; [|lia]. rewrite E, Nat.mod_same by lia. unfold bsize. lia.
    - destruct (Nat.eqb_spec j (nb - 1)) as [|Nj]; [lia|]. rewrite Nat.mod_small by lia.
      assert (F : forall k, k < nb - 1 -> bsize n b k = b).
      { intros k Hk. unfold bsize. assert ((k + 1) * b <= (nb - 1) * b) by (apply Nat.mul_le_mono_r; lia). lia. }
      destruct (Nat.eqb_spec (j + 1) (nb - 1)) as [E2|E2]; [|rewrite F by lia; lia].
      rewrite (F 0) by lia. unfold bsize. rewrite E2. assert ((j + 1) * b = (nb - 1) * b) by (f_equal; lia). nia.
  Qed.

  (** ---- histories, newest event first ---- *)
  Definition iokev (h : trace) (e : vev N) : Prop :=
    match e with
    | VEval x i c v => v = vf_eval f 0 x i c
    | VGrad x i c g g' => g = (if begun h then over_n c (vf_grad f 0 x i c) else vf_grad f 0 x i c) /\ g' = vc_hook cb h x g
    | _ => True
    end.
  Fixpoint IInv (tr : trace) : Prop :=
    match tr with [] => True | e :: h => iokev h e /\ in_range n b e /\ e <> VShuffle /\ IInv h end.
  Lemma begun_rev (h : trace) : begun (rev h) = begun h.
  Proof. clear. unfold begun. apply Bool.eq_iff_eq_true. rewrite !existsb_exists. split; intros (e & A & B); exists e; rewrite <- in_rev in *; auto. Qed.
  Lemma IInv_at (a h : trace) e : IInv (a ++ e :: h) -> iokev h e /\ in_range n b e.
  Proof. clear - a. induction a as [|e' a IH]; cbn; tauto. Qed.
  Lemma IInv_shuffles tr : IInv tr -> shuffles tr = 0.
  Proof. clear - tr. unfold shuffles. induction tr as [|e tr IH]; [reflexivity|]. cbn. intros (_ & _ & A & B). destruct e; cbn; auto. congruence. Qed.
  Lemma IInv_final (tr : trace) : IInv tr -> Forall (in_range n b) (rev tr) /\ iq_computed f cb (rev tr).
  Proof. clear solve norm eta maxIterations tol rows Hn Hb.
    intros H. split.
    - apply Forall_rev. revert H. induction tr as [|e tr IH]; constructor; cbn in H; [tauto|apply IH; tauto].
    - intros h e rest E. apply (f_equal (@rev _)) in E. rewrite rev_involutive, rev_app_distr in E.
      cbn [rev] in E. rewrite <- app_assoc in E. cbn in E. subst tr. apply IInv_at in H. destruct H as (H & _).
      unfold iokev in H. rewrite begun_rev in H. exact H.
  Qed.

  Definition from (k : nat) : list (nat * nat) := map (fun k => (k * b, bsize n b k)) (seq k (nb - k)).
  Lemma from_nb : from nb = []. Proof. unfold from. rewrite Nat.sub_diag. reflexivity. Qed.
  Lemma from_S k : k < nb -> from k = (k * b, bsize n b k) :: from (S k).
  Proof. intros L. unfold from. replace (nb - k) with (S (nb - S k)) by lia. reflexivity. Qed.
  Lemma from_0 : from 0 = all_batches n b.
  Proof. unfold from, all_batches. rewrite Nat.sub_0_r, nb_batches. reflexivity. Qed.
  Lemma below k : k < nb <-> k * b < n.
  Proof. destruct nb_bounds as (A & B & C). split; intros H; [|nia]. assert (k * b <= (nb - 1) * b) by (apply Nat.mul_le_mono_r; lia). lia. Qed.

  Lemma init_ok fuel x : forall k i gs term tr ys gs' term' tr', k <= nb -> i = Nat.min n (k * b) ->
    init_pass f cb b fuel x i gs term tr = Ret (ys, gs', term', tr') ->
    exists l, tr' = rev (grs_of x l) ++ tr /\ map fst l = from k /\
      Forall (fun p => length (snd (snd p)) = length x) l /\
      ys = map (fun p => over_n (snd (fst p)) (snd (snd p))) l /\ gs' = fold_left vadd (map (fun p => snd (snd p)) l) gs /\
      (IInv tr -> begun tr = false -> IInv tr' /\ begun tr' = false) /\ (term = ask tr -> term' = ask tr').
  Proof.
    induction fuel as [|fuel IH]; intros k i gs term tr ys gs' term' tr' Lk ->; cbn [init_pass];
      (destruct (Nat.ltb_spec (Nat.min n (k * b)) n) as [L|L];
       [|intros [= <- <- <- <-]; assert (k = nb) by (pose proof (below k); lia); subst k; exists []; rewrite from_nb; cbn; sp; auto]); [discriminate|].
    assert (Lk' : k < nb) by (apply below; lia). replace (Nat.min n (k * b)) with (k * b) by lia.
    change (Nat.min b (n - k * b)) with (bsize n b k).
    set (c := bsize n b k) in *. set (g := vf_grad f 0 x (k * b) c) in *. set (g' := vc_hook cb tr x g).
    destruct (Nat.eqb_spec (length g') (length x)) as [Lg|]; cbn [negb]; [|discriminate].
    destruct init_pass as [[[[ys0 gs0] term0] tr0]| |] eqn:H; try discriminate. intros [= <- <- <- <-].
    apply (IH (S k)) in H; [|lia|unfold c, bsize; lia]. destruct H as (l & E & Sl & F & Y & G & I & T).
    exists (((k * b, c), (g, g')) :: l). cbn [grs_of map fst snd rev fold_left]. fold (grs_of x l). rewrite <- app_assoc. cbn [app]. sp.
    - exact E.
    - rewrite (from_S k Lk'), Sl. reflexivity.
    - constructor; [exact Lg|exact F].
    - cbn [snd fst]. rewrite Y. reflexivity.
    - exact G.
    - intros A B. apply I; [|exact B]. cbn [IInv iokev in_range]. rewrite B. pose proof (bsize_range k Lk' : 0 < c <= b /\ k * b + c <= n). sp; auto; try discriminate; lia.
    - intros ->. apply T. cbn. apply orb_comm.
  Qed.

  Lemma inner_ok fuel : forall j done x st term tr x' st' term' tr', j <= nb -> done = seen j ->
    inner solve norm f cb eta b rows fuel j done x st term tr = Ret (x', st', term', tr') ->
    exists l, visits x st l x' st' /\ map y_k l = map (fun k => (k + 1) mod nb) (seq j (nb - j)) /\
      tr' = rev (flat_map (visit_events n b eta) l) ++ tr /\
      (IInv tr -> begun tr = true -> IInv tr' /\ begun tr' = true) /\ (term = ask tr -> term' = ask tr').
  Proof.
    induction fuel as [|fuel IH]; intros j done x st term tr x' st' term' tr' Lj ->; cbn [inner].
    - destruct (Nat.ltb_spec (seen j) n) as [L|L]; [discriminate|]. intros [= <- <- <- <-].
      assert (j = nb) by (destruct (Nat.lt_ge_cases j nb) as [Q|Q]; [apply seen_lt in Q; lia|lia]). subst j.
      exists []. rewrite Nat.sub_diag. cbn. sp; auto.
    - destruct (Nat.ltb_spec (seen j) n) as [L|L].
      2:{ intros [= <- <- <- <-].
          assert (j = nb) by (destruct (Nat.lt_ge_cases j nb) as [Q|Q]; [apply seen_lt in Q; lia|lia]). subst j.
          exists []. rewrite Nat.sub_diag. cbn. sp; auto. }
      assert (Lj' : j < nb).
      { destruct (Nat.lt_ge_cases j nb) as [Q|Q]; [exact Q|]. assert (j = nb) by lia. subst j. unfold seen in L. rewrite Nat.eqb_refl in L. lia. }
      set (it := (j + 1) mod nb). assert (Li : it < nb) by (apply Nat.mod_upper_bound; lia).
      change (batch_size f b it) with (bsize n b it). replace (seen j + bsize n b it) with (seen (j + 1)) by (apply seen_S; exact Lj').
      assert (Sq : seq j (nb - j) = j :: seq (j + 1) (nb - (j + 1))).
      { replace (nb - j) with (S (nb - (j + 1))) by lia. cbn [seq]. replace (S j) with (j + 1) by lia. reflexivity. }
      destruct (still it x st) eqn:Es.
      + intros H. apply IH in H; [|lia|reflexivity]. destruct H as (l & V & K & E & I & T).
        exists ({| y_k := it; y_x := x; y_move := None |} :: l). cbn. rewrite Sq. cbn [map]. rewrite K. sp; auto.
      + set (g := over (bsize n b it) _). set (g' := vc_hook cb tr x g). set (tr1 := VGrad x (it * b) (bsize n b it) g g' :: tr).
        destruct (Nat.eqb_spec (length g') (length x)) as [Lg|]; cbn [negb]; [|discriminate].
        destruct (move it x g' st) as [[x1 st1]|] eqn:M; [|discriminate].
        intros H. apply IH in H; [|lia|reflexivity]. destruct H as (l & V & K & E & I & T).
        exists ({| y_k := it; y_x := x; y_move := Some (g, g', x1) |} :: l). cbn [IQNSpec.visits y_x y_k y_move map flat_map visit_events].
        rewrite Sq. cbn [map]. rewrite K. sp; auto.
        * exists st1. auto.
        * rewrite E, rev_app_distr, <- app_assoc. reflexivity.
        * intros A B. apply I; [|exact B]. unfold tr1. cbn [IInv iokev in_range]. rewrite B. pose proof (bsize_range it Li). sp; auto; try discriminate; try lia.
        * intros ->. apply T. change (ask (VStep x1 eta :: tr1)) with (vc_stop cb (VStep x1 eta :: tr1) || (vc_stop cb tr1 || ask tr)). destruct (vc_stop cb (VStep x1 eta :: tr1)), (vc_stop cb tr1), (ask tr); reflexivity.
  Qed.
  Lemma order_eq : map (fun k => (k + 1) mod nb) (seq 0 nb) = seq 1 (nb - 1) ++ [0].
  Proof.
    destruct nb_bounds as (A & _). destruct nb as [|m]; [lia|]. replace (S m - 1) with m by lia.
    rewrite seq_S, map_app. cbn [map Nat.add]. f_equal.
    - rewrite <- seq_shift. apply map_ext_in. intros k Hk. apply in_seq in Hk. rewrite Nat.mod_small; lia.
    - replace (m + 1) with (S m) by lia. rewrite Nat.mod_same by lia. reflexivity.
  Qed.

  Lemma evals_ok fuel : forall x k acc term tr acc' term' tr', k <= nb -> IInv tr -> begun tr = true ->
    eval_pass f cb b fuel x (k * b) acc term tr = Some (acc', term', tr') ->
    exists l, tr' = rev (evs_of x l) ++ tr /\ map fst l = from k /\ acc' = fold_left nadd (map snd l) acc /\
      IInv tr' /\ begun tr' = true /\ (term = ask tr -> term' = ask tr').
  Proof.
    induction fuel as [|fuel IH]; intros x k acc term tr acc' term' tr' Lk I B; cbn [eval_pass];
      (destruct (Nat.ltb_spec (k * b) n) as [L|L];
       [|intros [= <- <- <-]; assert (k = nb) by (pose proof (below k); lia); subst k; exists []; rewrite from_nb; cbn; sp; auto]); [discriminate|].
    apply below in L. change (Nat.min b (n - k * b)) with (bsize n b k).
    rewrite (IInv_shuffles _ I). set (c := bsize n b k) in *. set (v := vf_eval f 0 x (k * b) c) in *.
    replace (k * b + b) with (S k * b) by (cbn; lia). intros H.
    apply IH in H; [|lia|pose proof (bsize_range k L : 0 < c <= b /\ k * b + c <= n); cbn [IInv iokev in_range]; sp; auto; try discriminate; lia|exact B].
    destruct H as (l & E & Sl & V & I' & B' & T).
    exists (((k * b, c), v) :: l). cbn [evs_of map fst snd rev fold_left]. fold (evs_of x l). rewrite <- app_assoc. cbn [app]. sp; auto.
    - rewrite (from_S k L), Sl. reflexivity.
    - intros ->. apply T. cbn. apply orb_comm.
  Qed.

  (** ---- the main loop ---- *)
  Variables (first : list (@geval N)) (init x0 : vec) (st0 : @ist N).
  Notation lim := (ilimit maxIterations).
  Definition ipre : trace := grs_of init first ++ [VBegin x0].
  Notation fl := (final tol).
  Notation events := (flat_map (pass_events n b eta)).
  Notation passes := (passes move still n b).
  Definition IB (ps : list (ipass N)) : Prop :=
    forall l p r, ps = l ++ p :: r -> ~ vasked cb (ipre ++ events l) /\ (r <> [] -> fl (a_value n p) = false).
  Definition IC (s : @irun N) (ps : list (ipass N)) : Prop :=
    passes x0 st0 ps (v_x s) (v_st s) /\ v_tr s = rev (ipre ++ events ps) /\ v_k s = length ps /\ length ps <= lim /\ IB ps /\
    v_val s = last (map (a_value n) ps) n0 /\ IInv (v_tr s) /\ begun (v_tr s) = true /\ v_term s = ask (v_tr s).
  Definition IP (s : @irun N) : Prop := exists ps, IC s ps /\ (forall p, In p ps -> fl (a_value n p) = false).
  Definition IQ (e : @iexit N) : Prop :=
    match e with
    | IBad | IMore => True
    | IEnd s => exists ps, IC s ps /\ ps <> [] /\ fl (v_val s) = true
    | IDone s => exists ps, IC s ps /\ (forall p, In p ps -> fl (a_value n p) = false) /\ (length ps = lim \/ ask (v_tr s) = true)
    end.
  Lemma passes_snoc ps : forall x s x1 s1 p s2, passes x s ps x1 s1 -> pass_ok n b p -> visits x1 s1 (a_visits p) (a_x p) s2 ->
    passes x s (ps ++ [p]) (a_x p) s2.
  Proof.
    induction ps as [|q ps IH]; intros x s x1 s1 p s2 R O V; cbn [app IQNSpec.passes] in *.
    - destruct R as (-> & ->). split; [exact O|]. exists s2. auto.
    - destruct R as (A & m & B & C). split; [exact A|]. exists m. split; [exact B|]. eapply IH; eassumption.
  Qed.
  Lemma ibody_ok fuel s : IP s -> match ibody solve norm f cb eta b maxIterations tol rows fuel s with inl s' => IP s' | inr e => IQ e end.
  Proof.
    intros (ps & (R & Et & Ek & Ll & Bf & Ev & I & Bg & T) & Nf). unfold ibody.
    destruct ((v_k s <? lim) && negb (v_term s)) eqn:Cnd; cbn [negb].
    2:{ exists ps. split; [unfold IC; sp; auto|]. split; [exact Nf|].
        destruct (v_term s) eqn:Bt; [right; congruence|]. cbn [negb] in Cnd. rewrite andb_true_r in Cnd. apply Nat.ltb_ge in Cnd. left. lia. }
    apply andb_prop in Cnd. destruct Cnd as (C1 & C2). apply Nat.ltb_lt in C1. apply negb_true_iff in C2.
    destruct inner as [[[[x st] term] tr]| |] eqn:In_; [|exact Logic.I|exact Logic.I].
    apply inner_ok in In_; [|lia|symmetry; apply seen_0]. destruct In_ as (l & V & K & E & I1 & T1).
    destruct (I1 I Bg) as (I2 & B2). rewrite Nat.sub_0_r, order_eq in K.
    destruct eval_pass as [[[ov term2] tr2]|] eqn:Ep; [|exact Logic.I].
    apply (evals_ok fuel x 0) in Ep; [|lia|exact I2|exact B2]. destruct Ep as (le & E2 & Sl & Eo & I3 & B3 & T3).
    set (p := {| a_visits := l; a_x := x; a_evals := le |}).
    assert (Ov : ndiv ov (nofnat n) = a_value n p) by (rewrite Eo; reflexivity). rewrite Ov.
    assert (Tr : tr2 = rev (ipre ++ events (ps ++ [p]))).
    { rewrite E2, E, Et, flat_map_app. cbn [flat_map]. rewrite app_nil_r. unfold pass_events. cbn [p a_visits a_x a_evals].
      rewrite (app_assoc ipre), (rev_app_distr (ipre ++ events ps)), (rev_app_distr (flat_map _ l)), <- app_assoc. reflexivity. }
    assert (C : IC {| v_k := S (v_k s); v_x := x; v_st := st; v_val := a_value n p; v_term := term2; v_tr := tr2 |} (ps ++ [p])).
    { unfold IC. cbn [v_x v_st v_tr v_k v_val v_term]. sp.
      - eapply (passes_snoc ps); [exact R| |exact V]. split; [cbn [p a_visits]; rewrite K; rewrite nb_batches; reflexivity|].
        cbn [p a_evals]. rewrite Sl. apply from_0.
      - exact Tr.
      - rewrite app_length. cbn. lia.
      - rewrite app_length. cbn. lia.
      - intros l' q r Eq. destruct r as [|q2 r _] using rev_ind.
        + apply app_inj_tail in Eq. destruct Eq as (<- & <-). split; [|congruence].
          intros A. rewrite <- (rev_involutive (ipre ++ events ps)) in A. apply askb_spec in A. rewrite <- Et in A. congruence.
        + rewrite app_comm_cons, app_assoc in Eq. apply app_inj_tail in Eq. destruct Eq as (-> & <-).
          split; [apply (Bf l' q r eq_refl)|]. intros _. apply Nf. apply in_or_app. cbn. auto.
      - rewrite map_app. cbn [map]. rewrite last_last. reflexivity.
      - exact I3.
      - exact B3.
      - apply T3, T1, T. }
    change (nisnan (a_value n p) || nisinf (a_value n p) || nlt (a_value n p) tol) with (fl (a_value n p)).
    destruct (fl (a_value n p)) eqn:Fl.
    - exists (ps ++ [p]). sp; auto. destruct ps; discriminate.
    - exists (ps ++ [p]). split; [exact C|]. intros q Hq. apply in_app_or in Hq. destruct Hq as [Hq|[<-|[]]]; auto.
  Qed.
End P.

Section Top.
  Context {N : Num}.
  Notation vec := (list N).
  Variable solve : nat -> (nat -> nat -> N) -> vec -> option vec.
  Variable norm : vec -> N.
  Variable f : VFun N.
  Variable cb : VCB N.
  Variables (eta : N) (b maxIterations : nat) (tol : N) (rows : nat).
  Notation n := (vf_num f).

  (** The memory after the initial pass. *)
  Definition istart (p : nat) (init : vec) (first : list (@geval N)) : @ist N :=
    {| i_B := ieye; i_u := init; i_g := over_n n (fold_left vadd (map (fun q => snd (snd q)) first) (repeat n0 p));
       i_tab := map (fun q => {| en_t := init; en_y := over_n (snd (fst q)) (snd (snd q)); en_Q := ieye |}) first |}.

  Lemma iqn_ok fuel init x r : iqn solve norm f cb eta b maxIterations tol rows fuel init x = Ret r ->
    0 < b /\ 0 < n /\ exists first,
      Forall (fun q => length (snd (snd q)) = length init) first /\
      iqn_report (move solve f eta b rows) (still norm) n b eta tol cb (ilimit maxIterations) first init x (istart (length x) init first)
        (ir_val r) (ir_x r) (ir_tr r) (ir_conv r) /\
      Forall (in_range n b) (ir_tr r) /\ iq_computed f cb (ir_tr r).
  Proof.
    unfold iqn. destruct (Nat.eqb_spec b 0) as [|Zb]; [discriminate|]. destruct (Nat.eqb_spec n 0) as [|Zn]; [discriminate|]. cbn [orb].
    destruct init_pass as [[[[ys gs] term] tr]| |] eqn:Ip; try discriminate.
    assert (Hb : 0 < b) by lia. assert (Hn : 0 < n) by lia.
    apply (init_ok f cb b Hn Hb fuel init 0) in Ip; [|lia|cbn; lia]. destruct Ip as (first & -> & Sl & Fl & -> & -> & I & T).
    rewrite (from_0 f b Hn Hb) in Sl.
    rewrite map_map. set (st := Build_ist _ _ _ _). change st with (istart (length x) init first). clear st.
    destruct (I Logic.I eq_refl) as (I1 & B1). specialize (T eq_refl).
    destruct (loop _ fuel _) as [s|e] eqn:Lp; [discriminate|].
    assert (Q : IQ solve norm f cb eta b maxIterations tol rows first init x (istart (length x) init first) e).
    { refine (loop_inv_done _ _ _ (ibody_ok solve norm f cb eta b maxIterations tol rows Hn Hb first init x (istart (length x) init first) fuel) _ _ _ _ Lp).
      exists []. split; [|intros p []]. unfold IC. cbn [v_x v_st v_tr v_k v_val v_term]. sp; try reflexivity.
      - split; reflexivity.
      - unfold ipre. cbn [flat_map]. rewrite !app_nil_r, rev_app_distr. reflexivity.
      - cbn. lia.
      - intros l p r' E. destruct l; discriminate.
      - cbn [IInv iokev in_range]. sp; auto. discriminate.
      - rewrite T. reflexivity. }
    assert (End : forall tr y, IInv f cb b tr -> Forall (in_range n b) (rev (VEnd y :: tr)) /\ iq_computed f cb (rev (VEnd y :: tr))).
    { intros t y H. apply IInv_final. cbn [IInv iokev in_range]. sp; auto. discriminate. }
    destruct e as [s|s| |]; try discriminate; intros [= <-]; cbn [ir_val ir_x ir_tr ir_conv]; split; [exact Hb| |exact Hb|]; (split; [exact Hn|]).
    - destruct Q as (ps & (R & Et & Ek & Ll & Bf & Ev & Ii & Bg & Tt) & Nf & W). exists first. split; [exact Fl|]. split; [|apply End; exact Ii].
      split; [exact Sl|]. exists ps, (v_st s). split; [exact R|]. fold (ipre first init x). cbv zeta. sp; auto.
      + cbn [rev]. rewrite Et, rev_involutive, <- app_assoc. reflexivity.
      + destruct W as [W|W]; [left; exact W|]. right. rewrite Et in W. apply askb_spec in W. rewrite rev_involutive in W. exact W.
    - destruct Q as (ps & (R & Et & Ek & Ll & Bf & Ev & Ii & Bg & Tt) & Ne & W). exists first. split; [exact Fl|]. split; [|apply End; exact Ii].
      split; [exact Sl|]. exists ps, (v_st s). split; [exact R|]. fold (ipre first init x). cbv zeta. sp; auto.
      cbn [rev]. rewrite Et, rev_involutive, <- app_assoc. reflexivity.
  Qed.

  (** an iterate with several rows cannot move *)
  Lemma visits_rows l : forall x s x' s', rows <> 1 -> visits (move solve f eta b rows) (still norm) x s l x' s' ->
    x' = x /\ flat_map (visit_events n b eta) l = [].
  Proof.
    induction l as [|v l IH]; intros x s x' s' Hr H; cbn in H; [tauto|]. destruct H as (Ex & H). cbn [flat_map]. unfold visit_events at 1.
    destruct (y_move v) as [[[g g'] to]|].
    - destruct H as (_ & _ & s1 & M & _). exfalso. unfold move in M. destruct nth_error; [|discriminate].
      destruct (Nat.eqb_spec rows 1); [contradiction|]. discriminate.
    - destruct H as (_ & H). apply IH in H; [|exact Hr]. destruct H as (-> & ->). auto.
  Qed.
  Lemma iqn_rows fuel init x r : rows <> 1 -> iqn solve norm f cb eta b maxIterations tol rows fuel init x = Ret r ->
    ir_x r = x /\ forall y e, ~ In (VStep y e) (ir_tr r).
  Proof.
    intros Hr H. apply iqn_ok in H. destruct H as (_ & _ & first & _ & (_ & ps & s' & R & E & _) & _ & _).
    assert (G : forall ps x s x' s', passes (move solve f eta b rows) (still norm) n b x s ps x' s' ->
                x' = x /\ forall y e, ~ In (VStep y e) (flat_map (pass_events n b eta) ps)).
    { clear - Hr. induction ps as [|p ps IH]; intros x s x' s' H; cbn in H; [split; [tauto|intros ? ? []]|].
      destruct H as (_ & s1 & V & P). apply visits_rows in V; [|exact Hr]. destruct V as (V1 & V2). apply IH in P. destruct P as (P1 & P2).
      split; [congruence|]. intros y e. cbn [flat_map]. unfold pass_events at 1. rewrite V2. cbn [app]. intros H. apply in_app_or in H.
      destruct H as [H|H]; [|exact (P2 y e H)]. unfold evs_of in H. apply in_map_iff in H. destruct H as (q & Q & _). discriminate. }
    apply G in R. destruct R as (R1 & R2). split; [exact R1|]. intros y e H. rewrite E in H.
    rewrite !in_app_iff in H. destruct H as [[H|H]|[H|H]].
    - unfold grs_of in H. apply in_map_iff in H. destruct H as (q & Q & _). discriminate.
    - destruct H as [H|[]]; discriminate.
    - exact (R2 y e H).
    - destruct H as [H|[]]; discriminate.
  Qed.

  (** ---- it ends ---- *)
  Lemma init_more fuel x : forall i gs term tr, n - i <= fuel -> 0 < b -> init_pass f cb b fuel x i gs term tr <> More.
  Proof.
    induction fuel as [|fuel IH]; intros i gs term tr L Hb; cbn [init_pass]; destruct (Nat.ltb_spec i n); try discriminate; [lia|].
    destruct negb; [discriminate|].
    match goal with |- context [init_pass f cb b fuel x ?i' ?g' ?t' ?tr'] => pose proof (IH i' g' t' tr') as Q; destruct (init_pass f cb b fuel x i' g' t' tr') as [[[[? ?] ?] ?]| |] end;
      [discriminate|discriminate|]. exfalso. apply Q; [lia|lia|reflexivity].
  Qed.
  Lemma inner_more fuel : forall j x st term tr, 0 < n -> 0 < b -> j <= num_batches f b -> num_batches f b - j <= fuel ->
    inner solve norm f cb eta b rows fuel j (seen f b j) x st term tr <> More.
  Proof.
    induction fuel as [|fuel IH]; intros j x st term tr Hn Hb L1 L; cbn [inner].
    - assert (j = num_batches f b) by lia. subst j. unfold seen. rewrite Nat.eqb_refl, Nat.ltb_irrefl. discriminate.
    - destruct (Nat.ltb_spec (seen f b j) n) as [Ln|]; [|discriminate].
      assert (Lj : j < num_batches f b).
      { destruct (Nat.lt_ge_cases j (num_batches f b)) as [Q|Q]; [exact Q|]. assert (j = num_batches f b) by lia. subst j. unfold seen in Ln. rewrite Nat.eqb_refl in Ln. lia. }
      rewrite <- (seen_S f b Hn Hb j Lj : seen f b (j + 1) = seen f b j + batch_size f b ((j + 1) mod num_batches f b)).
      destruct still; [apply IH; auto; lia|]. destruct negb; [discriminate|]. destruct move as [[x1 s1]|]; [|discriminate]. apply IH; auto; lia.
  Qed.
  Lemma nb_le : 0 < n -> 0 < b -> num_batches f b <= n.
  Proof. intros Hn Hb. destruct (nb_bounds f b Hn Hb) as (A & B & C). nia. Qed.
  Lemma iqn_ends fuel init x : n <= fuel -> ilimit maxIterations < fuel ->
    iqn solve norm f cb eta b maxIterations tol rows fuel init x <> More.
  Proof.
    intros L1 L2. unfold iqn. destruct (Nat.eqb_spec b 0) as [|Zb]; [discriminate|]. destruct (Nat.eqb_spec n 0) as [|Zn]; [discriminate|]. cbn [orb].
    pose proof (init_more fuel init 0 (repeat n0 (length x)) false [] ltac:(lia) ltac:(lia)) as I.
    destruct init_pass as [[[[ys gs] term] tr]| |]; [|discriminate|congruence].
    set (st := Build_ist _ _ _ _). clearbody st.
    assert (Bd : forall s, ibody solve norm f cb eta b maxIterations tol rows fuel s <> inr IMore).
    { intros s. unfold ibody. destruct negb; [discriminate|].
      pose proof (inner_more fuel 0 (v_x s) (v_st s) (v_term s) (v_tr s) ltac:(lia) ltac:(lia) ltac:(lia)) as J.
      rewrite (seen_0 f b) in J by lia. destruct inner as [[[[x1 st1] t1] tr1]| |]; [|discriminate|exfalso; apply J; [pose proof nb_le; lia|reflexivity]].
      destruct (eval_pass_more f cb b ltac:(lia) fuel x1 0 n0 t1 tr1) as [[[ov t2] tr2] ->]; [lia|]. destruct (_ || _); discriminate. }
    destruct (loop _ fuel _) as [s|e] eqn:Lp.
    - exfalso.
      destruct (loop_terminates (ibody solve norm f cb eta b maxIterations tol rows fuel) (fun _ => True) (fun s => ilimit maxIterations - v_k s)) with (fuel := fuel)
        (s := {| v_k := 0; v_x := x; v_st := st; v_val := n0; v_term := term; v_tr := VBegin x :: tr |}) as (r & E).
      + intros s0 _. unfold ibody. destruct (Nat.ltb_spec (v_k s0) (ilimit maxIterations)); cbn [andb negb]; [|exact Logic.I].
        destruct (v_term s0); cbn [negb]; [exact Logic.I|]. destruct inner as [[[[x1 st1] t1] tr1]| |]; try exact Logic.I.
        destruct eval_pass as [[[ov t2] tr2]|]; [|exact Logic.I]. destruct (_ || _); [exact Logic.I|]. cbn [v_k]. split; [exact Logic.I|lia].
      + exact Logic.I.
      + cbn [v_k]. lia.
      + congruence.
    - destruct e; try discriminate. exfalso.
      enough (forall k s, loop (ibody solve norm f cb eta b maxIterations tol rows fuel) k s <> inr IMore) by (eapply H; exact Lp).
      clear - Bd. induction k as [|k IH]; intros s; cbn [loop]; [discriminate|].
      pose proof (Bd s) as E. destruct ibody; [apply IH|congruence].
  Qed.
End Top.
