(** Objectives that are not finite: big-batch SGD, SPALeRA SGD, SPSA and L-BFGS. *)
From Coq Require Import List Arith Bool Lia.
From Verif.Base Require Import Num Vec Loop Size.
From Verif.Model Require Import VarRed Common.
From Verif.Model Require BigBatch Spalera SPSA LBFGS.
From Verif.Spec Require Import FiniteSpec.
From Verif.Proof Require Import FiniteProof FiniteSgd.
Import ListNotations.

Section M.
  Context {N : Num}.
  Hypothesis K : sticky N.

  Section BB.
    Import BigBatch.
    Variable f : VFun N.
    Variable cb : BCB N.
    Variable pol : bpolicy N.
    Variables (max : nat) (tol : N) (shuffle exact : bool).
    Variable norm : list N -> N.
    Variable offset : nat -> nat.
    Section Fixed.
      Variable ov : N.
      Let T (tr : list (bev N)) : Prop := tracks bad_bev same_bepoch tr ov.
      Lemma bgrad_T x i term tr g t tr' : T tr -> bgrad f cb x i term tr = (g, t, tr') -> T tr'.
      Proof. intros H [= _ _ <-]. apply tracks_ok; [exact I|exact (fun b => b)|exact H]. Qed.
      Lemma sample_T x i k s : T (e_tr s) -> T (e_tr (sample f cb norm x i k s)).
      Proof.
        intros H. unfold sample. destruct (bgrad f cb x i (e_term s) (e_tr s)) as [[g t] tr] eqn:E0. apply bgrad_T in E0; [|exact H]. exact E0.
      Qed.
      Lemma samples_T x c : forall i k s, T (e_tr s) -> T (e_tr (samples f cb norm x i k c s)).
      Proof. induction c as [|c IH]; intros i k s H; cbn [samples]; [exact H|]. apply IH. now apply sample_T. Qed.
      Lemma grow_T x cf fuel : forall bs c k gB r s bs' c' gB' r' s', T (e_tr s) ->
        grow f cb norm offset fuel x cf bs c k gB r s = Some (bs', c', gB', r', s') -> T (e_tr s').
      Proof.
        induction fuel as [|n IH]; intros bs c k gB r s bs' c' gB' r' s' H; cbn [grow]; destruct (noisy gB (e_v s) bs);
          try (intros [= _ _ _ _ <-]; exact H).
        - destruct (vf_num f <=? _); [intros [= _ _ _ _ <-]; exact H|discriminate].
        - destruct (vf_num f <=? _); [intros [= _ _ _ _ <-]; exact H|]. intros E0. eapply IH; [|exact E0]. now apply samples_T.
      Qed.
      Lemma quiet_T x cf c tr v tr' : T tr -> quiet f x cf c tr = (v, tr') -> T tr'.
      Proof. intros H [= _ <-]. apply tracks_ok; [exact I|exact (fun b => b)|exact H]. Qed.
      Lemma search_T fuel sh sp x g gB cf c obj : forall eta tr eta' tr', T tr -> search f fuel sh sp x g gB cf c obj eta tr = Some (eta', tr') -> T tr'.
      Proof.
        induction fuel as [|n IH]; intros eta tr eta' tr' H; cbn [search];
          destruct (quiet f (vsub x (vscale eta g)) cf c tr) as [v tr1] eqn:E0; apply quiet_T in E0; try exact H;
          destruct (nlt _ v); try discriminate; try (intros [= _ <-]; exact E0). apply IH; exact E0.
      Qed.
      Lemma backtrack_T fuel sh sp x g gB cf c eta tr eta' tr' : T tr -> backtrack f fuel sh sp x g gB cf c eta tr = Some (eta', tr') -> T tr'.
      Proof. intros H. unfold backtrack. destruct (quiet f x cf c tr) as [v tr1] eqn:E0. apply quiet_T in E0; [|exact H]. now apply search_T. Qed.
      Lemma bgradq_T x i tr g tr' : T tr -> bgradq f x i tr = (g, tr') -> T tr'.
      Proof. intros H [= _ <-]. apply tracks_ok; [exact I|exact (fun b => b)|exact H]. Qed.
      Lemma regrad_T x prev c : forall i k s, T (o_tr s) -> T (o_tr (regrad f norm x prev i k c s)).
      Proof.
        induction c as [|c IH]; intros i k s H; cbn [regrad]; [exact H|].
        destruct (bgradq f x i (o_tr s)) as [g tr] eqn:E0. apply bgradq_T in E0; [|exact H].
        destruct (bgradq f prev i tr) as [g1 tr1] eqn:E1. apply bgradq_T in E1; [|exact E0]. apply IH. exact E1.
      Qed.
      Lemma update_T fuel prev eta x g gB cf bs c reset tr p' e' x' g' tr' : T tr ->
        update f pol norm fuel prev eta x g gB cf bs c reset tr = Some (p', e', x', g', tr') -> T tr'.
      Proof.
        intros H. unfold update. destruct pol as [sp|bts sp].
        - destruct (backtrack _ _ _ _ _ _ _ _ _ _ _) as [[e1 tr1]|] eqn:E0; [|discriminate]. apply backtrack_T in E0; [|exact H]. now intros [= _ _ _ _ <-].
        - destruct (backtrack _ _ _ _ _ _ _ _ _ _ _) as [[e1 tr1]|] eqn:E0; [|discriminate]. apply backtrack_T in E0; [|exact H].
          destruct (bgradq f _ cf tr1) as [g1 tr2] eqn:E1. apply bgradq_T in E1; [|exact E0].
          destruct (bgradq f _ cf tr2) as [g2 tr3] eqn:E2. apply bgradq_T in E2; [|exact E1].
          match goal with |- context [regrad f norm ?a ?b ?c ?d ?e ?s] => pose proof (regrad_T a b e c d s E2) as E3; set (s1 := regrad f norm a b c d e s) in * end.
          clearbody s1. destruct (backtrack _ _ _ _ _ _ _ _ _ _ _) as [[e2 tr4]|] eqn:E4; [|discriminate]. apply backtrack_T in E4; [|exact E3].
          now intros [= _ _ _ _ <-].
      Qed.
    End Fixed.
    Let P (s : @bst N) : Prop := tracks bad_bev same_bepoch (b_tr s) (b_over s).
    Let Q (e : bexit) : Prop := match e with BDone s => P s | BConv s => P s | _ => True end.
    Lemma bbody_tracks fuel s : P s -> match bbody f cb pol max tol shuffle norm offset fuel s with inl s => P s | inr e => Q e end.
    Proof.
      intros H. unfold bbody. destruct (negb _); [exact H|]. destruct (vf_num f =? 0); [exact I|].
      destruct (bgrad f cb (b_x s) (b_cf s) (b_term s) (b_tr s)) as [[g t] tr] eqn:E0. apply (bgrad_T (b_over s)) in E0; [|exact H].
      match goal with |- context [samples f cb norm ?a ?b ?c ?d ?e] => pose proof (samples_T (b_over s) a d b c e E0) as E1; set (s1 := samples f cb norm a b c d e) in * end.
      clearbody s1.
      match goal with |- context [match ?o with Some _ => _ | None => _ end] => destruct o as [[[[[bs c] gB] reset] e]|] eqn:E2 end; [|exact I].
      assert (E3 : tracks bad_bev same_bepoch (e_tr e) (b_over s)).
      { destruct (_ =? b_bs s); [eapply grow_T; [exact E1|exact E2]|]. injection E2 as _ _ _ _ <-. exact E1. }
      clear E2. destruct (e_term e); [exact E3|].
      destruct (update _ _ _ _ _ _ _ _ _ _ _ _ _ _) as [[[[[prev eta] x] g1] tr1]|] eqn:E4; [|exact I].
      apply (update_T (b_over s)) in E4; [|exact E3].
      match goal with |- context [BStep ?y ?h :: tr1] => apply (tracks_ok _ _ (BStep y h) _ _ I (fun b => b)) in E4 end.
      match goal with |- context [BEval ?y ?a ?k ?v :: _] => apply (tracks_add K _ _ (BEval y a k v) _ _ v I (fun b => b)) in E4;
        set (v1 := v) in *; clearbody v1 end.
      destruct (negb _); [exact E4|].
      match goal with |- context [BEndEpoch ?y ?h :: _] => apply (tracks_ok _ _ (BEndEpoch y h) _ _ I (fun b => b)) in E4 end.
      destruct (nisnan _ || nisinf _) eqn:NF; cbn [orb]; [exact E4|]. destruct (nlt _ _); [exact E4|].
      apply finite_test in NF. apply (tracks_finite _ _ _ _ NF) in E4. unfold P. cbn [b_tr b_over]. apply clean_tracks.
      destruct shuffle; repeat (first [exact E4|apply clean_cons; [exact (fun b => b)|]]).
    Qed.
    Lemma final_fwd fuel x bs : forall i acc tr v tr', fwd bad_bev same_bepoch tr -> final_pass f fuel x bs i acc tr = Some (v, tr') -> fwd bad_bev same_bepoch tr'.
    Proof.
      induction fuel as [|n IH]; intros i acc tr v tr' F; cbn [final_pass]; destruct (i <? vf_num f); try discriminate; try (now intros [= <- <-]).
      intros H. eapply IH; [|exact H]. split; [intros; exact I|exact F].
    Qed.
    Lemma bigbatch_end fuel bs eta prev x r : bigbatch f cb pol max tol shuffle exact norm offset fuel bs eta prev x = Ret r ->
      afterwards bad_bev same_bepoch (br_tr r) /\ (exact = false -> Exists bad_bev (br_tr r) -> nonfinite (br_val r)).
    Proof.
      unfold bigbatch.
      assert (FIN : forall s, P s -> afterwards bad_bev same_bepoch (rev (BEnd (b_x s) :: b_tr s)) /\
        (Exists bad_bev (rev (BEnd (b_x s) :: b_tr s)) -> nonfinite (b_over s))).
      { intros s [F V]. split; [apply fwd_afterwards; split; [intros; exact I|exact F]|].
        intros B. apply ex_rev in B. apply Exists_cons in B as [[]|B]. exact (V B). }
      match goal with |- context [loop ?B fuel ?s0] =>
        assert (P0 : P s0) by (apply clean_tracks; apply clean_cons; [exact (fun b => b)|intros X; inversion X]);
        pose proof (loop_inv B P Q (bbody_tracks fuel) fuel s0 P0) as H;
        destruct (loop B fuel s0) as [|[s|s| |]] end; try discriminate.
      - cbn [Q] in H. destruct exact.
        + destruct (final_pass _ _ _ _ _ _ _) as [[v tr]|] eqn:E0; [|discriminate]. apply final_fwd in E0; [|exact (proj1 H)].
          intros [= <-]. cbn [br_tr br_val]. split; [|discriminate].
          apply (fwd_afterwards bad_bev same_bepoch (BEnd (b_x s) :: tr)). split; [intros; exact I|exact E0].
        + intros [= <-]. destruct (FIN s H) as [A B]. split; [exact A|intros _; exact B].
      - intros [= <-]. destruct (FIN s H) as [A B]. split; [exact A|intros _; exact B].
    Qed.
  End BB.

  Section SP.
    Import Spalera.
    Variable npow : N -> nat -> N.
    Variable nexp : N -> N.
    Variable tiny : N.
    Variables alpha epsilon rate : N.
    Variable f : VFun N.
    Variable cb : PCB N.
    Variables (b max : nat) (tol lambda : N) (shuffle exact : bool).
    Context {D : Type}.
    Variable decay : D -> list N -> N -> list N -> D * N.
    Let T := tracks (N := N) (bad_pev (N := N)) same_pepoch.
    Lemma pass_T fuel x : forall i acc term tr v t tr', T tr acc -> pass f cb b fuel x i acc term tr = Some (v, t, tr') -> T tr' v.
    Proof.
      induction fuel as [|n IH]; intros i acc term tr v t tr' H; cbn [pass]; destruct (i <? vf_num f); try discriminate; try (now intros [= <- <- <-]).
      intros E0. eapply IH; [|exact E0]. apply tracks_add; [exact K|exact I|exact (fun b => b)|exact H].
    Qed.
    Lemma pass_fwd fuel x : forall i acc term tr v t tr', fwd bad_pev same_pepoch tr -> pass f cb b fuel x i acc term tr = Some (v, t, tr') -> fwd bad_pev same_pepoch tr'.
    Proof.
      induction fuel as [|n IH]; intros i acc term tr v t tr' H; cbn [pass]; destruct (i <? vf_num f); try discriminate; try (now intros [= <- <- <-]).
      intros E0. eapply IH; [|exact E0]. split; [intros; exact I|exact H].
    Qed.
    Let P (s : @lst N D) : Prop := T (l_tr s) (l_over s).
    Let Q (e : @lexit N D) : Prop := match e with LDone s | LFail s => fwd bad_pev same_pepoch (l_tr s) | LConv s => P s | LBad => True end.
    Lemma pbody_tracks lam s : P s -> match pbody npow nexp tiny alpha epsilon rate f cb b max tol shuffle decay lam s with inl s => P s | inr e => Q e end.
    Proof.
      intros H. unfold pbody. destruct (negb _); [exact (proj1 H)|]. destruct (vf_num f =? 0); [exact I|].
      match goal with |- context [PBoth ?x ?i ?k ?v ?g ?g'] => assert (H1 : T (PBoth x i k v g g' :: l_tr s) (nadd (l_over s) v)) by
        (apply tracks_add; [exact K|exact I|exact (fun b => b)|exact H]); set (e1 := PBoth x i k v g g') in *; set (v1 := v) in *; clearbody v1 e1 end.
      destruct (pc_stop cb _); [exact (proj1 H1)|].
      destruct (update _ _ _ _ _ _ _ _ _ _ _ _ _ _) as [[[x [|]] pol]|]; [|exact (proj1 H1)|exact I].
      destruct (decay _ _ _ _) as [d eta].
      apply (tracks_ok _ _ (PStep x (l_eta s)) _ _ I (fun b => b)) in H1.
      destruct (negb _); [exact H1|].
      match goal with |- context [PEndEpoch ?y ?h :: _] => apply (tracks_ok _ _ (PEndEpoch y h) _ _ I (fun b => b)) in H1 end.
      destruct (nisnan _ || nisinf _) eqn:NF; cbn [orb]; [exact H1|]. destruct (nlt _ _); [exact H1|].
      apply finite_test in NF. apply (tracks_finite _ _ _ _ NF) in H1. unfold P. cbn [l_tr l_over]. apply clean_tracks.
      destruct shuffle; repeat (first [exact H1|apply clean_cons; [exact (fun b => b)|]]).
    Qed.
    Lemma spalera_end fuel old eta d x r : spalera npow nexp tiny alpha epsilon rate f cb b max tol lambda shuffle exact decay fuel old eta d x = Ret r ->
      afterwards bad_pev same_pepoch (pr_tr r) /\ (pr_end r = PConverged -> Exists bad_pev (pr_tr r) -> nonfinite (pr_val r)).
    Proof.
      unfold spalera. destruct (pass f cb b fuel x 0 n0 false [PBegin x]) as [[[ov t] tr]|] eqn:E0; [|discriminate].
      apply pass_T in E0; [|apply clean_tracks; apply clean_cons; [exact (fun b => b)|intros X; inversion X]].
      apply (tracks_ok bad_pev same_pepoch (PBeginEpoch 1 ov) _ _ eq_refl (fun b => b)) in E0.
      destruct (match old with None => _ | Some _ => _ end) as [pol lam].
      match goal with |- context [loop ?B fuel ?s0] =>
        pose proof (loop_inv B P Q (pbody_tracks lam) fuel s0 E0) as H;
        destruct (loop B fuel s0) as [|[s|s|s|]] end; try discriminate.
      - cbn [Q] in H. destruct exact.
        + destruct (pass _ _ _ _ _ _ _ _ _) as [[[v t1] tr1]|] eqn:E1; [|discriminate]. apply pass_fwd in E1; [|exact H].
          intros [= <-]. split; [|discriminate]. apply (fwd_afterwards bad_pev same_pepoch (PEnd (l_x s) :: tr1)). split; [intros; exact I|exact E1].
        + intros [= <-]. split; [|discriminate]. apply (fwd_afterwards bad_pev same_pepoch (PEnd (l_x s) :: l_tr s)). split; [intros; exact I|exact H].
      - intros [= <-]. split.
        + apply (fwd_afterwards bad_pev same_pepoch (PEnd (l_x s) :: l_tr s)). split; [intros; exact I|exact (proj1 H)].
        + intros _ B. apply (ex_rev bad_pev (PEnd (l_x s) :: l_tr s)) in B. apply Exists_cons in B as [[]|B]. exact (proj2 H B).
      - intros [= <-]. split; [|discriminate]. apply (fwd_afterwards bad_pev same_pepoch (PEnd (l_x s) :: l_tr s)). split; [intros; exact I|exact H].
    Qed.
  End SP.
End M.

Section SPSA.
  Import SPSA.
  Context {N : Num}.
  Variables (alpha gamma stepSize evaluationStepSize ak : N).
  Variable max : nat.
  Variable tol : N.
  Variable pw : N -> N -> N.
  Variable f : list N -> N.
  Variable coin : nat -> list bool.
  Variable cb : CB N (list N) (list N).
  Notation event := (ev N (list N) (list N)).

  (** newest first: a bad pair can only be the newest *)
  Definition newest (tr : list event) (ov : N) (x : list N) : Prop :=
    (forall a e' e b, tr = a ++ e' :: e :: b -> bad_after_step e e' -> a = [] /\ nonfinite ov /\ f x = ov) /\
    (forall y b, tr <> St y :: b).
  Lemma no_pair tr ov x : newest tr ov x -> ~ nonfinite ov -> forall a e' e b, tr = a ++ e' :: e :: b -> ~ bad_after_step e e'.
  Proof. intros H F a e' e b E B. exact (F (proj1 (proj2 (proj1 H a e' e b E B)))). Qed.

  Lemma spsa_loop_end fuel : forall k ov last term x tr r, newest tr ov x ->
    spsa_loop alpha gamma stepSize evaluationStepSize ak max tol pw f coin cb fuel k ov last term x tr = Some r ->
    forall a e e' b, o_tr r = a ++ e :: e' :: b -> bad_after_step e e' -> Forall (fun e => ~ is_step e) b /\ nonfinite (o_val r).
  Proof.
    assert (RV : forall (t : list event) a e e' b, rev t = a ++ e :: e' :: b -> t = rev b ++ e' :: e :: rev a).
    { intros t a e e' b E. apply (f_equal (@rev event)) in E. rewrite rev_involutive, rev_app_distr in E. cbn [rev] in E.
      rewrite <- !app_assoc in E. exact E. }
    assert (FIN : forall ov x tr, newest tr ov x -> forall a e e' b, o_tr (spsa_final f x tr) = a ++ e :: e' :: b -> bad_after_step e e' ->
      Forall (fun e => ~ is_step e) b /\ nonfinite (o_val (spsa_final f x tr))).
    { intros ov x tr H a e e' b E B. cbn [spsa_final spsa_done o_tr o_val] in *. apply RV in E. rewrite <- (rev_involutive b).
      generalize dependent (rev b). clear b. intros b E. destruct b as [|p b].
      - injection E as <- _. destruct e; destruct B.
      - injection E as <- E. destruct b as [|p b].
        + injection E as <- E. destruct e; try contradiction. cbn [rev app]. split; [repeat constructor; exact (fun h => h)|exact B].
        + injection E as <- E. destruct (proj1 H _ _ _ _ E B) as (-> & V & EV). cbn [rev app].
          split; [repeat constructor; exact (fun h => h)|]. rewrite EV. exact V. }
    induction fuel as [|n IH]; intros k ov last term x tr r H; cbn [spsa_loop]; destruct (negb _); try discriminate;
      try (intros [= <-]; exact (FIN ov x tr H)).
    assert (DONE : forall r, Some (spsa_done ov x tr) = Some r -> forall a e e' b, o_tr r = a ++ e :: e' :: b -> bad_after_step e e' ->
      Forall (fun e => ~ is_step e) b /\ nonfinite (o_val r)).
    { intros r0 [= <-] a e e' b E B. cbn [spsa_done o_tr o_val] in *. apply RV in E. rewrite <- (rev_involutive b).
      generalize dependent (rev b). clear b. intros b E. destruct b as [|p b].
      - injection E as <- _. destruct e; destruct B.
      - injection E as <- E. destruct (proj1 H _ _ _ _ E B) as (-> & V & EV). cbn [rev app]. split; [repeat constructor; exact (fun h => h)|exact V]. }
    destruct (nisnan ov || nisinf ov) eqn:NF; [apply DONE|]. destruct (nlt _ _); [apply DONE|].
    apply finite_test in NF. pose proof (no_pair _ _ _ H NF) as NP. clear DONE.
    assert (N2 : forall y p z q, (forall a e' e b, Ev y p :: Ev z q :: tr = a ++ e' :: e :: b -> ~ bad_after_step e e')).
    { intros y p z q a e' e b E B. destruct a as [|w a].
      - injection E as <- <- E. exact B.
      - injection E as _ E. destruct a as [|w1 a].
        + injection E as <- E. destruct e; try exact B. exact (proj2 H _ _ E).
        + injection E as _ E. exact (NP _ _ _ _ E B). }
    destruct (_ || _).
    - intros [= <-]. apply (FIN ov). split; [|discriminate]. intros a e' e b E B. exfalso. exact (N2 _ _ _ _ _ _ _ _ E B).
    - apply IH. split; [|discriminate]. intros a e' e b E B. destruct a as [|w a].
      + injection E as <- <- E. cbn [bad_after_step] in B. split; [reflexivity|]. split; [exact B|reflexivity].
      + exfalso. injection E as _ E. destruct a as [|w1 a].
        * injection E as <- E. destruct e; exact B.
        * injection E as _ E. exact (N2 _ _ _ _ _ _ _ _ E B).
  Qed.

  Lemma spsa_end fuel x r : spsa alpha gamma stepSize evaluationStepSize ak max tol pw f coin cb fuel x = Some r ->
    forall a e e' b, o_tr r = a ++ e :: e' :: b -> bad_after_step e e' -> Forall (fun e => ~ is_step e) b /\ nonfinite (o_val r).
  Proof.
    apply spsa_loop_end. split; [|discriminate]. intros [|w [|w1 a]] e' e b E; discriminate.
  Qed.
End SPSA.

Section LBFGS.
  Import LBFGS.
  Context {N : Num}.
  Variable numBasis : nat.
  Variable max : nat.
  Variables (armijo minGradientNorm wolfe factr minStep maxStep : N).
  Variable maxTrials : nat.
  Variable tol : N.
  Variables norm2 normF : list N -> N.
  Variable f : list N -> N * list N.
  Variable cb : CB N (list N) (list N).
  Notation clean := (clean (nan_ev (N := N) (X := list N) (G := list N))).

  Lemma ls_clean fuel : forall k x d f0 slope lin step best bo term trials tr l, clean tr ->
    ls_loop wolfe minStep maxStep maxTrials f cb fuel k x d f0 slope lin step best bo term trials tr = Some l -> clean (ls_tr l).
  Proof.
    induction fuel as [|n IH]; intros k x d f0 slope lin step best bo term trials tr l C; cbn [ls_loop]; [discriminate|].
    destruct (f (vadd x (vscale step d))) as [v g]. destruct (nisnan v) eqn:NF; [intros [= <-]; exact C|].
    match goal with |- context [EvG ?a v g ?b :: tr] => assert (C1 : clean (EvG a v g b :: tr)) by
      (apply clean_cons; [cbn [nan_ev]; congruence|exact C]) end.
    match goal with |- context [match ?w with Some _ => _ | None => _ end] => destruct w as [ww|] end; [|intros [= <-]; exact C1].
    destruct (_ || _); [intros [= <-]; exact C1|]. apply IH. exact C1.
  Qed.
  Lemma lb_clean fuel : forall it s y v x g term tr r, clean tr ->
    lb_loop numBasis max armijo minGradientNorm wolfe factr minStep maxStep maxTrials tol norm2 normF f cb fuel it s y v x g term tr = Ret r ->
    afterwards nan_ev only_marks (o_tr (fst r)) /\ (Exists nan_ev (o_tr (fst r)) -> False).
  Proof.
    assert (FIN : forall v x term tr r, clean tr -> @lb_done N v x term tr = Ret r -> afterwards nan_ev only_marks (o_tr (fst r)) /\ (Exists nan_ev (o_tr (fst r)) -> False)).
    { intros v x term tr r C [= <-]. cbn [fst o_tr]. split.
      - apply (fwd_afterwards nan_ev only_marks (End x :: tr)). split; [intros; exact I|now apply clean_fwd].
      - intros B. apply (ex_rev nan_ev (End x :: tr)) in B. apply Exists_cons in B as [[]|B]. exact (C B). }
    induction fuel as [|n IH]; intros it s y v x g term tr r C; cbn [lb_loop]; destruct (negb _); try discriminate; try (now apply FIN).
    destruct (nlt _ _); [now apply FIN|]. destruct (nisnan v); [now apply FIN|].
    destruct (choose_scaling _ _ _ _ _ _) as [ga|]; [|discriminate]. destruct (neq ga n0); [now apply FIN|]. destruct (negb _); [now apply FIN|].
    destruct (search_direction _ _ _ _ _ _) as [d|]; [|discriminate].
    destruct (line_search _ _ _ _ _ _ _ _ _ _ _ _ _) as [l|] eqn:L; [|discriminate].
    assert (C1 : clean (ls_tr l)).
    { unfold line_search in L. destruct (_ || _); [injection L as <-; exact C|]. eapply ls_clean; [exact C|exact L]. }
    destruct (negb _); [now apply FIN|]. destruct (neq _ _); [now apply FIN|]. destruct (nle _ _); [now apply FIN|].
    destruct (update_basis _ _ _ _ _ _ _ _) as [[s' y']|]; [|discriminate]. apply IH. apply clean_cons; [exact (fun b => b)|exact C1].
  Qed.
  Lemma lbfgs_end fuel term0 s0 y0 x r :
    lbfgs numBasis max armijo minGradientNorm wolfe factr minStep maxStep maxTrials tol norm2 normF f cb fuel term0 s0 y0 x = Ret r ->
    afterwards nan_ev only_marks (o_tr (fst r)) /\
    (Exists nan_ev (o_tr (fst r)) -> o_x (fst r) = x /\ o_val (fst r) = fst (f x) /\ nisnan (fst (f x)) = true).
  Proof.
    unfold lbfgs. destruct (f x) as [v g]. cbn [fst]. set (g' := cs_grad cb [] x v g). destruct (nisnan v) eqn:NF.
    - assert (D : forall t, @lb_done N v x t [Begin x; EvG x v g g'] = Ret r -> afterwards nan_ev only_marks (o_tr (fst r)) /\
        (Exists nan_ev (o_tr (fst r)) -> o_x (fst r) = x /\ o_val (fst r) = v /\ true = true)).
      { intros t [= <-]. cbn [fst o_tr o_x o_val]. split; [|auto].
        apply (fwd_afterwards nan_ev only_marks [End x; Begin x; EvG x v g g']). cbn [fwd].
        repeat split; intros B; try exact I. inversion B. }
      destruct fuel as [|n]; cbn [lb_loop]; destruct (negb _); try discriminate; try apply D.
      destruct (nlt _ _); [apply D|]. rewrite NF. apply D.
    - intros H. apply lb_clean in H.
      + destruct H as [A B]. split; [exact A|]. intros E. destruct (B E).
      + repeat (apply clean_cons; [cbn [nan_ev]; try congruence; exact (fun b => b)|]). intros B. inversion B.
  Qed.
End LBFGS.
