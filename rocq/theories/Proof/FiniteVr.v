(** Neither a gradient nor a step after an objective that is not finite: SVRG, SARAH, Katyusha, IQN. *)
From Coq Require Import List Arith Bool Lia.
From Verif.Base Require Import Num Loop Size.
From Verif.Model Require Import Common VarRed SVRG.
From Verif.Model Require Sarah Katyusha IQN.
From Verif.Spec Require Import FiniteSpec.
From Verif.Proof Require Import FiniteProof FiniteSgd.
Import ListNotations.

Section V.
  Context {N : Num}.
  Hypothesis K : sticky N.
  Notation tracks := (tracks (N := N) bad_vev only_values).
  Notation clean := (clean (bad_vev (N := N))).

  Section P.
    Variable f : VFun N.
    Variable cb : VCB N.
    Variable b : nat.
    Lemma eval_tracks fuel x : forall i acc term tr v term' tr', tracks tr acc -> eval_pass f cb b fuel x i acc term tr = Some (v, term', tr') -> tracks tr' v.
    Proof.
      induction fuel as [|n IH]; intros i acc term tr v term' tr' T; cbn [eval_pass]; destruct (i <? vf_num f); try discriminate; try (now intros [= <- <- <-]).
      intros H. eapply IH; [|exact H]. apply tracks_add; [exact K|exact I|exact (fun b => b)|exact T].
    Qed.
    Lemma eval_fwd fuel x : forall i acc term tr v term' tr', fwd bad_vev only_values tr ->
      eval_pass f cb b fuel x i acc term tr = Some (v, term', tr') -> fwd bad_vev only_values tr'.
    Proof.
      induction fuel as [|n IH]; intros i acc term tr v term' tr' T; cbn [eval_pass]; destruct (i <? vf_num f); try discriminate; try (now intros [= <- <- <-]).
      intros H. eapply IH; [|exact H]. split; [intros; exact I|exact T].
    Qed.
    Lemma grad_at_clean x i c term tr a g term' tr' : clean tr -> grad_at f cb x i c term tr = (a, g, term', tr') -> clean tr'.
    Proof. intros C [= _ _ _ <-]. apply clean_cons; [exact (fun b => b)|exact C]. Qed.
    Lemma grad_pass_clean m fuel x : forall i acc term tr s term' tr', clean tr -> grad_pass f cb b m fuel x i acc term tr = Some (s, term', tr') -> clean tr'.
    Proof.
      induction fuel as [|n IH]; intros i acc term tr s term' tr' T; cbn [grad_pass]; destruct (i <? vf_num f); try discriminate; try (now intros [= <- <- <-]).
      destruct m; [destruct (grad_at f cb x i _ term tr) as [[[g g'] t1] tr1] eqn:A; apply grad_at_clean in A; [|exact T]; intros H; eapply IH; [exact A|exact H]..|].
      intros H. eapply IH; [|exact H]. apply clean_cons; [exact (fun b => b)|exact T].
    Qed.
    Lemma full_clean m fuel x1 x term tr s term' tr' : clean tr -> full_gradient f cb b m fuel x1 x term tr = Some (s, term', tr') -> clean tr'.
    Proof.
      intros T. unfold full_gradient. destruct (grad_at f cb x1 0 _ term tr) as [[[g g'] t1] tr1] eqn:A. apply grad_at_clean in A; [|exact T].
      destruct (grad_pass _ _ _ _ _ _ _ _ _ _) as [[[s1 t2] tr2]|] eqn:B; [|discriminate]. intros [= _ _ <-]. eapply grad_pass_clean; [exact A|exact B].
    Qed.
  End P.

  (** what a returned run says *)
  Definition vr_good {A} (exact : bool) (r : @vres N A) : Prop :=
    afterwards bad_vev only_values (vr_tr r) /\ (exact = false -> Exists bad_vev (vr_tr r) -> nonfinite (vr_val r)).
  Lemma fin_good {A} exact v x c (st : A) tr : tracks tr v -> vr_good exact {| vr_val := v; vr_x := x; vr_tr := rev (VEnd x :: tr); vr_conv := c; vr_st := st |}.
  Proof.
    intros [F V]. split; cbn [vr_tr vr_val]; [apply fwd_afterwards; split; [intros; exact I|exact F]|].
    intros _ B. apply ex_rev in B. apply Exists_cons in B as [[]|B]. exact (V B).
  Qed.
  Lemma fin_exact {A} v x c (st : A) tr : fwd bad_vev only_values tr -> vr_good true {| vr_val := v; vr_x := x; vr_tr := rev (VEnd x :: tr); vr_conv := c; vr_st := st |}.
  Proof. intros F. split; cbn [vr_tr vr_val]; [apply fwd_afterwards; split; [intros; exact I|exact F]|discriminate]. Qed.

  Section SVRG.
    Context {D : Type}.
    Variable f : VFun N.
    Variable cb : VCB N.
    Variables (b max : nat) (tol : N) (shuffle exact : bool).
    Variable dp : D -> list N -> list N -> list N -> nat -> N -> D * N.

    Lemma ibody_clean inner x0 full eta (s : ist) : clean (i_tr s) -> match ibody f cb b shuffle inner x0 full eta s with
      inl s => clean (i_tr s) | inr None => True | inr (Some s) => clean (i_tr s) end.
    Proof.
      intros C. unfold ibody. destruct (negb _); [exact C|]. destruct (vf_num f =? 0); [exact I|].
      destruct (if i_cur s mod vf_num f =? 0 then _ else _) as [cur tr] eqn:E0.
      assert (C0 : clean tr).
      { destruct (i_cur s mod vf_num f =? 0); [destruct shuffle|]; injection E0 as _ <-; try exact C. apply clean_cons; [exact (fun b => b)|exact C]. }
      clear E0. destruct (grad_at f cb (i_x s) cur _ (i_term s) tr) as [[[g g1] t1] tr1] eqn:A1. apply grad_at_clean in A1; [|exact C0].
      destruct (grad_at f cb x0 cur _ t1 tr1) as [[[g2 g3] t2] tr2] eqn:A2. apply grad_at_clean in A2; [|exact A1].
      destruct t2; [exact A2|]. cbn [i_tr]. apply clean_cons; [exact (fun b => b)|exact A2].
    Qed.
    Let P (s : @sst N D) : Prop := clean (s_tr s).
    Let Q (e : @sexit N D) : Prop := match e with SDone s => tracks (s_tr s) (s_over s) | SConv s => tracks (s_tr s) (s_over s) | _ => True end.
    Lemma sbody_clean fuel inner s : P s -> match sbody f cb b max tol shuffle dp fuel inner s with inl s => P s | inr e => Q e end.
    Proof.
      intros C. unfold sbody. destruct (negb _); [now apply clean_tracks|].
      destruct (eval_pass _ _ _ _ _ _ _ _ _) as [[[ov t] tr]|] eqn:E0; [|exact I].
      apply eval_tracks in E0; [|now apply clean_tracks]. destruct t; [exact E0|].
      destruct (nisnan ov || nisinf ov) eqn:NF; cbn [orb]; [exact E0|]. destruct (nlt _ _); [exact E0|].
      apply finite_test in NF. apply (tracks_finite _ _ _ _ NF) in E0.
      destruct (full_gradient _ _ _ _ _ _ _ _ _) as [[[full t] tr1]|] eqn:E1; [|exact I].
      apply full_clean in E1; [|exact E0]. destruct t; [now apply clean_tracks|].
      match goal with |- context [loop ?B fuel ?s0] =>
        pose proof (loop_inv B (fun s => clean (i_tr s)) (fun o => match o with None => True | Some s => clean (i_tr s) end)
          (ibody_clean inner _ _ _) fuel s0 E1) as L;
        destruct (loop B fuel s0) as [|[t|]] end; try exact I.
      destruct (dp _ _ _ _ _ _) as [d' eta']. exact L.
    Qed.
    Lemma svrg_end fuel inner d eta x r : svrg f cb b max tol shuffle exact dp fuel inner d eta x = Ret r -> vr_good exact r.
    Proof.
      unfold svrg. destruct (b =? 0); [discriminate|].
      match goal with |- context [loop ?B fuel ?s0] =>
        assert (P0 : P s0) by (apply clean_cons; [exact (fun b => b)|intros X; inversion X]);
        pose proof (loop_inv B P Q (sbody_clean fuel _) fuel s0 P0) as H;
        destruct (loop B fuel s0) as [|[s|s| |]] end; try discriminate.
      - cbn [Q] in H. destruct exact.
        + destruct (eval_pass _ _ _ _ _ _ _ _ _) as [[[v t] tr]|] eqn:E0; [|discriminate]. apply eval_fwd in E0; [|exact (proj1 H)].
          intros [= <-]. now apply fin_exact.
        + intros [= <-]. now apply fin_good.
      - intros [= <-]. now apply fin_good.
    Qed.
  End SVRG.

  Section Sarah.
    Import Sarah.
    Variable f : VFun N.
    Variable cb : VCB N.
    Variables (b max : nat) (tol : N) (shuffle exact : bool) (eta : N).
    Variable norm : list N -> N.
    Variable early : list N -> N -> bool.
    Lemma qbody_clean inner vn (s : qst) : clean (q_tr s) -> match qbody f cb b shuffle eta early inner vn s with
      inl s => clean (q_tr s) | inr None => True | inr (Some s) => clean (q_tr s) end.
    Proof.
      intros C. unfold qbody. destruct (negb _); [exact C|]. destruct (vf_num f =? 0); [exact I|].
      destruct (if q_cur s mod vf_num f =? 0 then _ else _) as [cur tr] eqn:E0.
      assert (C0 : clean tr).
      { destruct (q_cur s mod vf_num f =? 0); [destruct shuffle|]; injection E0 as _ <-; try exact C. apply clean_cons; [exact (fun b => b)|exact C]. }
      clear E0. destruct (grad_at f cb (q_x s) cur _ (q_term s) tr) as [[[g g1] t1] tr1] eqn:A1. apply grad_at_clean in A1; [|exact C0].
      destruct (if 0 <? q_f s then _ else _) as [[[g2 g3] t2] tr2] eqn:A2.
      assert (C2 : clean tr2). { destruct (0 <? q_f s); [eapply grad_at_clean; [|exact A2]; exact A1|]. injection A2 as _ _ _ <-. exact A1. }
      destruct t2; [exact C2|]. destruct (early _ _); [exact C2|]. cbn [q_tr]. apply clean_cons; [exact (fun b => b)|exact C2].
    Qed.
    Let P (s : ast) : Prop := clean (a_tr s).
    Let Q (e : aexit) : Prop := match e with ADone s => tracks (a_tr s) (a_over s) | AConv s => tracks (a_tr s) (a_over s) | _ => True end.
    Lemma abody_clean fuel inner s : P s -> match abody f cb b max tol shuffle eta norm early fuel inner s with inl s => P s | inr e => Q e end.
    Proof.
      intros C. unfold abody. destruct (negb _); [now apply clean_tracks|].
      destruct (eval_pass _ _ _ _ _ _ _ _ _) as [[[ov t] tr]|] eqn:E0; [|exact I].
      apply eval_tracks in E0; [|now apply clean_tracks].
      destruct (nisnan ov || nisinf ov) eqn:NF; cbn [orb]; [exact E0|]. destruct (nlt _ _); [exact E0|].
      apply finite_test in NF. apply (tracks_finite _ _ _ _ NF) in E0.
      destruct (full_gradient _ _ _ _ _ _ _ _ _) as [[[full t1] tr1]|] eqn:E1; [|exact I].
      apply full_clean in E1; [|exact E0]. destruct t1; [now apply clean_tracks|].
      match goal with |- context [loop ?B fuel ?s0] =>
        pose proof (loop_inv B (fun s => clean (q_tr s)) (fun o => match o with None => True | Some s => clean (q_tr s) end)
          (qbody_clean inner (norm full)) fuel s0 E1) as L;
        destruct (loop B fuel s0) as [|[t2|]] end; try exact I.
      exact L.
    Qed.
    Lemma sarah_end fuel inner x r : sarah f cb b max tol shuffle exact eta norm early fuel inner x = Ret r -> vr_good exact r.
    Proof.
      unfold sarah.
      match goal with |- context [loop ?B fuel ?s0] =>
        assert (P0 : P s0) by (apply clean_cons; [exact (fun b => b)|intros X; inversion X]);
        pose proof (loop_inv B P Q (abody_clean fuel _) fuel s0 P0) as H;
        destruct (loop B fuel s0) as [|[s|s| |]] end; try discriminate.
      - cbn [Q] in H. destruct exact.
        + destruct (eval_pass _ _ _ _ _ _ _ _ _) as [[[v t] tr]|] eqn:E0; [|discriminate]. apply eval_fwd in E0; [|exact (proj1 H)].
          intros [= <-]. now apply fin_exact.
        + intros [= <-]. now apply fin_good.
      - intros [= <-]. now apply fin_good.
    Qed.
  End Sarah.

  Section Katyusha.
    Import Katyusha.
    Variable f : VFun N.
    Variable cb : VCB N.
    Variable proximal : bool.
    Variables (convexity lipschitz : N) (b max : nat) (tol : N) (shuffle exact : bool).
    Lemma kbody_clean inner x0 full (s : kst) : clean (k_tr s) -> match kbody f cb proximal convexity lipschitz b shuffle inner x0 full s with
      inl s => clean (k_tr s) | inr None => True | inr (Some s) => clean (k_tr s) end.
    Proof.
      intros C. unfold kbody. destruct (negb _); [exact C|]. destruct (vf_num f =? 0); [exact I|].
      destruct (if k_cur s mod vf_num f =? 0 then _ else _) as [cur tr] eqn:E0.
      assert (C0 : clean tr).
      { destruct (k_cur s mod vf_num f =? 0); [destruct shuffle|]; injection E0 as _ <-; try exact C. apply clean_cons; [exact (fun b => b)|exact C]. }
      clear E0. match goal with |- context [VStep ?y ?h :: tr] => apply (clean_cons bad_vev (VStep y h) tr (fun b => b)) in C0 end.
      match goal with |- context [grad_at f cb ?x ?i ?c ?t ?tr0] => destruct (grad_at f cb x i c t tr0) as [[[g g1] t1] tr1] eqn:A1 end.
      apply grad_at_clean in A1; [|exact C0].
      destruct (grad_at f cb x0 cur _ t1 tr1) as [[[g2 g3] t2] tr2] eqn:A2. apply grad_at_clean in A2; [|exact A1].
      exact A2.
    Qed.
    Let P (s : hst) : Prop := clean (h_tr s).
    Let Q (e : hexit) : Prop := match e with HDone s => tracks (h_tr s) (h_over s) | HConv s => tracks (h_tr s) (h_over s) | _ => True end.
    Lemma hbody_clean fuel inner s : P s -> match hbody f cb proximal convexity lipschitz b max tol shuffle fuel inner s with inl s => P s | inr e => Q e end.
    Proof.
      intros C. unfold hbody. destruct (negb _); [now apply clean_tracks|].
      destruct (eval_pass _ _ _ _ _ _ _ _ _) as [[[ov t] tr]|] eqn:E0; [|exact I].
      apply eval_tracks in E0; [|now apply clean_tracks].
      destruct (nisnan ov || nisinf ov) eqn:NF; cbn [orb]; [exact E0|]. destruct (nlt _ _); [exact E0|].
      apply finite_test in NF. apply (tracks_finite _ _ _ _ NF) in E0.
      destruct (full_gradient _ _ _ _ _ _ _ _ _) as [[[full t1] tr1]|] eqn:E1; [|exact I].
      apply full_clean in E1; [|exact E0].
      match goal with |- context [loop ?B fuel ?s0] =>
        pose proof (loop_inv B (fun s => clean (k_tr s)) (fun o => match o with None => True | Some s => clean (k_tr s) end)
          (kbody_clean inner _ full) fuel s0 E1) as L;
        destruct (loop B fuel s0) as [|[t2|]] end; try exact I.
      exact L.
    Qed.
    Lemma katyusha_end fuel inner x r : katyusha f cb proximal convexity lipschitz b max tol shuffle exact fuel inner x = Ret r -> vr_good exact r.
    Proof.
      unfold katyusha. destruct (b =? 0); [discriminate|].
      match goal with |- context [loop ?B fuel ?s0] =>
        assert (P0 : P s0) by (apply clean_cons; [exact (fun b => b)|intros X; inversion X]);
        pose proof (loop_inv B P Q (hbody_clean fuel _) fuel s0 P0) as H;
        destruct (loop B fuel s0) as [|[s|s| |]] end; try discriminate.
      - cbn [Q] in H. destruct exact.
        + destruct (eval_pass _ _ _ _ _ _ _ _ _) as [[[v t] tr]|] eqn:E0; [|discriminate]. apply eval_fwd in E0; [|exact (proj1 H)].
          intros [= <-]. now apply fin_exact.
        + intros [= <-]. now apply fin_good.
      - intros [= <-]. now apply fin_good.
    Qed.
  End Katyusha.

  Section IQN.
    Import IQN.
    Variable solve : nat -> (nat -> nat -> N) -> list N -> option (list N).
    Variable norm : list N -> N.
    Variable f : VFun N.
    Variable cb : VCB N.
    Variables (eta : N) (b max : nat) (tol : N) (rows : nat).
    Lemma init_clean fuel x : forall i gs term tr ys gs' t tr', clean tr -> init_pass f cb b fuel x i gs term tr = Ret (ys, gs', t, tr') -> clean tr'.
    Proof.
      induction fuel as [|n IH]; intros i gs term tr ys gs' t tr' C; cbn [init_pass]; destruct (i <? vf_num f); try discriminate; try (now intros [= <- <- <- <-]).
      destruct (negb _); [discriminate|]. destruct (init_pass _ _ _ n _ _ _ _ _) as [[[[ys1 gs1] t1] tr1]| |] eqn:E0; try discriminate.
      intros [= _ _ _ <-]. eapply IH; [|exact E0]. apply clean_cons; [exact (fun b => b)|exact C].
    Qed.
    Lemma inner_clean fuel : forall j done x st term tr x' st' t tr', clean tr ->
      inner solve norm f cb eta b rows fuel j done x st term tr = Ret (x', st', t, tr') -> clean tr'.
    Proof.
      induction fuel as [|n IH]; intros j done x st term tr x' st' t tr' C; cbn [inner]; destruct (done <? vf_num f); try discriminate;
        try (now intros [= <- <- <- <-]).
      destruct (still _ _ _ _); [apply IH; exact C|]. destruct (negb _); [discriminate|].
      destruct (move _ _ _ _ _ _ _ _ _) as [[x1 st1]|]; [|discriminate]. intros H. eapply IH; [|exact H].
      repeat (apply clean_cons; [exact (fun b => b)|]). exact C.
    Qed.
    Let P (s : irun) : Prop := clean (v_tr s).
    Let Q (e : iexit) : Prop := match e with IDone s => tracks (v_tr s) (v_val s) | IEnd s => tracks (v_tr s) (v_val s) | _ => True end.
    Lemma iqn_body_clean fuel s : P s -> match ibody solve norm f cb eta b max tol rows fuel s with inl s => P s | inr e => Q e end.
    Proof.
      intros C. unfold ibody. destruct (negb _); [now apply clean_tracks|].
      destruct (inner _ _ _ _ _ _ _ _ _ _ _ _ _ _) as [[[[x st] t] tr]| |] eqn:E1; [|exact I|exact I].
      apply inner_clean in E1; [|exact C].
      destruct (eval_pass _ _ _ _ _ _ _ _ _) as [[[ov t1] tr1]|] eqn:E0; [|exact I].
      apply eval_tracks in E0; [|now apply clean_tracks].
      assert (E2 : tracks tr1 (ndiv ov (nofnat (vf_num f)))) by (split; [exact (proj1 E0)|intros X; apply (sk_div N K); exact (proj2 E0 X)]).
      destruct (nisnan _ || nisinf _) eqn:NF; cbn [orb]; [exact E2|]. destruct (nlt _ _); [exact E2|].
      apply finite_test in NF. exact (tracks_finite _ _ _ _ NF E2).
    Qed.
    Lemma iqn_end fuel init x r : iqn solve norm f cb eta b max tol rows fuel init x = Ret r ->
      afterwards bad_vev only_values (ir_tr r) /\ (Exists bad_vev (ir_tr r) -> nonfinite (ir_val r)).
    Proof.
      unfold iqn. destruct (_ || _); [discriminate|].
      destruct (init_pass _ _ _ _ _ _ _ _ _) as [[[[ys gs] t] tr]| |] eqn:E0; try discriminate.
      apply init_clean in E0; [|intros X; inversion X].
      assert (FIN : forall s, tracks (v_tr s) (v_val s) -> afterwards bad_vev only_values (rev (VEnd (v_x s) :: v_tr s)) /\
        (Exists bad_vev (rev (VEnd (v_x s) :: v_tr s)) -> nonfinite (v_val s))).
      { intros s [F V]. split; [apply fwd_afterwards; split; [intros; exact I|exact F]|].
        intros B. apply ex_rev in B. apply Exists_cons in B as [[]|B]. exact (V B). }
      match goal with |- context [loop ?B fuel ?s0] =>
        assert (P0 : P s0) by (apply clean_cons; [exact (fun b => b)|exact E0]);
        pose proof (loop_inv B P Q (iqn_body_clean fuel) fuel s0 P0) as H;
        destruct (loop B fuel s0) as [|[s|s| |]] end; try discriminate; intros [= <-]; cbn [ir_tr ir_val]; now apply FIN.
    Qed.
  End IQN.
End V.
