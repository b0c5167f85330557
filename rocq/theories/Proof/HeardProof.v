From Coq Require Import List Arith Bool.
From Verif.Base Require Import Num Vec Size.
From Verif.Model Require Import Common GradientDescent CD FrankWolfe LBFGS.
From Verif.Spec Require Import HeardSpec.
Import ListNotations.

Section Heard.
  Context {N : Num}.
  Notation vec := (list N).

  Lemma gd_heard stepSize maxIterations tolerance f (cb : CB N vec vec) : forall fuel i overall last term x tr r,
    gd_loop stepSize maxIterations tolerance f cb fuel i overall last term x tr = Some r -> heard cb tr -> heard cb (rev (o_tr r)).
  Proof.
    induction fuel as [|fuel IH]; intros i overall last term x tr r H HT; cbn [gd_loop] in H;
      (destruct (negb (negb (i =? bound maxIterations) && negb term)); [injection H as <-; cbn [gd_done o_tr]; rewrite rev_involutive; split; [exact I|exact HT]|]); try discriminate.
    destruct (f x) as [v g]. destruct (nisnan v || nisinf v); [injection H as <-; cbn [gd_done o_tr]; rewrite rev_involutive; repeat split; exact HT|].
    destruct (nlt _ tolerance); [injection H as <-; cbn [gd_done o_tr]; rewrite rev_involutive; repeat split; exact HT|].
    eapply IH; [exact H|]. repeat split. exact HT.
  Qed.
  Theorem gd_heard_all stepSize maxIterations tolerance f (cb : CB N vec vec) fuel x r :
    gd stepSize maxIterations tolerance f cb fuel x = Some r -> heard cb (rev (o_tr r)).
  Proof. intros H. eapply gd_heard; [exact H|]. repeat split. Qed.

  Lemma fw_heard maxIterations tolerance f lmo rule (cb : CB N vec vec) : forall fuel i cur term x hist tr r,
    fw_loop maxIterations tolerance f lmo rule cb fuel i cur term x hist tr = Ret r -> heard cb tr -> heard cb (rev (o_tr r)).
  Proof.
    induction fuel as [|fuel IH]; intros i cur term x hist tr r H HT; cbn [fw_loop] in H;
      (destruct (negb (negb (i =? bound maxIterations) && negb term)); [injection H as <-; cbn [fw_done o_tr]; rewrite rev_involutive; split; [exact I|exact HT]|]); try discriminate.
    destruct (f x) as [v g]. 
    destruct (nlt _ tolerance); [injection H as <-; cbn [fw_done o_tr]; rewrite rev_involutive; repeat split; exact HT|].
    eapply IH; [exact H|]. repeat split. exact HT.
  Qed.
  Theorem fw_heard_all maxIterations tolerance f lmo rule (cb : CB N vec vec) fuel x r :
    frank_wolfe maxIterations tolerance f lmo rule cb fuel x = Ret r -> heard cb (rev (o_tr r)).
  Proof. intros H. eapply fw_heard; [exact H|]. repeat split. Qed.

  Notation mat := (list (list N)).
  Lemma cd_heard stepSize maxIterations tolerance updateInterval f pg policy (cb : CB N mat mat) : forall fuel i overall last term x tr r,
    cd_loop stepSize maxIterations tolerance updateInterval f pg policy cb fuel i overall last term x tr = Ret r ->
    last_value tr = overall -> heard cb tr -> heard cb (rev (o_tr r)).
  Proof.
    assert (FIN : forall x tr, heard cb tr -> heard cb (rev (o_tr (cd_final f x tr)))).
    { intros x tr HT. unfold cd_final. cbn [o_tr]. rewrite rev_involutive. repeat split. exact HT. }
    induction fuel as [|fuel IH]; intros i overall last term x tr r H LV HT; cbn [cd_loop] in H;
      (destruct (negb (negb (i =? bound maxIterations) && negb term)); [injection H as <-; apply FIN, HT|]); try discriminate.
    destruct (policy i x) as [j|]; [|discriminate].
    set (g := pg x j) in *. set (g' := cs_grad cb tr x overall g) in *.
    assert (H1 : heard cb (Gr x j g g' :: tr)) by (split; [rewrite LV; reflexivity|exact HT]).
    destruct (term || cs_stop cb (Gr x j g g' :: tr)); [injection H as <-; apply FIN, H1|].
    destruct (negb ((j <? length x) && (j <? length g'))); [discriminate|].
    destruct (updateInterval =? 0); [discriminate|].
    destruct (i mod updateInterval =? 0).
    - destruct (nisnan _ || nisinf _ || nlt _ tolerance).
      + injection H as <-. cbn [o_tr]. rewrite !rev_app_distr, rev_involutive. cbn [rev app]. split; [exact I|]. split; [exact I|]. split; [exact I|exact H1].
      + eapply IH; [exact H|reflexivity|]. split; [exact I|]. split; [exact I|exact H1].
    - eapply IH; [exact H|exact LV|]. split; [exact I|exact H1].
  Qed.
  Theorem cd_heard_all stepSize maxIterations tolerance updateInterval f pg policy (cb : CB N mat mat) fuel x r :
    cd stepSize maxIterations tolerance updateInterval f pg policy cb fuel x = Ret r -> heard cb (rev (o_tr r)).
  Proof. intros H. eapply cd_heard; [exact H|reflexivity|]. repeat split. Qed.

  Section L.
    Variable numBasis maxIterations : nat.
    Variables (armijo minGradientNorm wolfe factr minStep maxStep : N).
    Variable maxTrials : nat.
    Variable tol : N.
    Variables norm2 normF : vec -> N.
    Variable f : vec -> N * vec.
    Variable cb : CB N vec vec.
    Lemma ls_heard : forall fuel k x d f0 slope lin step best bestObj term trials tr l,
      ls_loop wolfe minStep maxStep maxTrials f cb fuel k x d f0 slope lin step best bestObj term trials tr = Some l ->
      heard cb tr -> heard cb (ls_tr l).
    Proof.
      induction fuel as [|fuel IH]; intros k x d f0 slope lin step best bestObj term trials tr l H HT; cbn [ls_loop] in H; [discriminate|].
      destruct (f (vadd x (vscale step d))) as [v g]. destruct (nisnan v); [injection H as <-; exact HT|].
      set (p := vadd x (vscale step d)) in *. set (g' := cs_grad cb tr p v g) in *.
      assert (H1 : heard cb (EvG p v g g' :: tr)) by (split; [reflexivity|exact HT]).
      match type of H with match ?w with _ => _ end = _ => destruct w end; [|injection H as <-; exact H1].
      destruct (nlt step minStep || nlt maxStep step || (maxTrials <=? S k)); [injection H as <-; exact H1|].
      eapply IH; [exact H|exact H1].
    Qed.
    Lemma line_heard v0 x g d term tr l :
      line_search armijo wolfe minStep maxStep maxTrials f cb v0 x g d term tr = Some l -> heard cb tr -> heard cb (ls_tr l).
    Proof.
      unfold line_search. intros H HT. destruct (nlt n0 (vdot g d) || negb (nfinite (vdot g d))); [injection H as <-; exact HT|].
      eapply ls_heard; eassumption.
    Qed.
    Lemma lb_heard : forall fuel itNum s y v x g term tr r,
      lb_loop numBasis maxIterations armijo minGradientNorm wolfe factr minStep maxStep maxTrials tol norm2 normF f cb
        fuel itNum s y v x g term tr = Ret r -> heard cb tr -> heard cb (rev (o_tr (fst r))).
    Proof.
      assert (FIN : forall v x term tr r, lb_done v x term tr = Ret r -> heard cb tr -> heard cb (rev (o_tr (fst r)))).
      { intros v x term tr r H HT. unfold lb_done in H. injection H as <-. cbn [fst o_tr]. rewrite rev_app_distr, rev_involutive.
        split; [exact I|exact HT]. }
      induction fuel as [|fuel IH]; intros itNum s y v x g term tr r H HT; cbn [lb_loop] in H;
        (destruct (negb (((maxIterations =? 0) || negb (itNum =? maxIterations)) && negb term)); [eapply FIN; eassumption|]); try discriminate.
      destruct (nlt (norm2 g) minGradientNorm); [eapply FIN; eassumption|].
      destruct (nisnan v); [eapply FIN; eassumption|].
      destruct (choose_scaling _ _ _ _ _ _ _) as [gamma|]; [|discriminate].
      destruct (neq gamma n0); [eapply FIN; eassumption|].
      destruct (negb (nfinite gamma)); [eapply FIN; eassumption|].
      destruct (search_direction _ _ _ _ _ _) as [d|]; [|discriminate].
      destruct (line_search armijo wolfe minStep maxStep maxTrials f cb v x g d term tr) as [l|] eqn:LS; [|discriminate].
      pose proof (line_heard _ _ _ _ _ _ _ LS HT) as HL.
      destruct (negb (ls_ok l)); [eapply FIN; eassumption|].
      destruct (neq (ls_step l) n0); [eapply FIN; eassumption|].
      destruct (nle _ factr); [eapply FIN; eassumption|].
      destruct (update_basis _ _ _ _ _ _ _ _) as [[s' y']|]; [|discriminate].
      eapply IH; [exact H|]. split; [exact I|exact HL].
    Qed.
    Theorem lbfgs_heard_all fuel term0 s0 y0 x r :
      lbfgs numBasis maxIterations armijo minGradientNorm wolfe factr minStep maxStep maxTrials tol norm2 normF f cb
        fuel term0 s0 y0 x = Ret r -> heard cb (rev (o_tr (fst r))).
    Proof. unfold lbfgs. destruct (f x) as [v g]. intros H. eapply lb_heard; [exact H|]. repeat split. Qed.
  End L.
End Heard.
