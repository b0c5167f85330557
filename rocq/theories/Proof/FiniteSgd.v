(** No new epoch begins after an objective that is not finite: SGD and Eve. *)
From Coq Require Import List Arith Bool Lia.
From Verif.Base Require Import Num Loop Size.
From Verif.Model Require Import Eve Sgd.
From Verif.Spec Require Import FiniteSpec.
From Verif.Proof Require Import FiniteProof.
Import ListNotations.

Section S.
  Context {N : Num}.
  Hypothesis K : sticky N.

  Definition tracks {E} (bad ok : E -> Prop) (tr : list E) (over : N) : Prop :=
    fwd bad ok tr /\ (Exists bad tr -> nonfinite over).
  Lemma tracks_ok {E} (bad ok : E -> Prop) e tr over : ok e -> ~ bad e -> tracks bad ok tr over -> tracks bad ok (e :: tr) over.
  Proof. intros O B [F V]. split; [split; [intros; exact O|exact F]|]. intros X. apply Exists_cons in X as [X|X]; [destruct (B X)|auto]. Qed.
  Lemma tracks_add {E} (bad ok : E -> Prop) e tr over v : ok e -> (bad e -> nonfinite v) -> tracks bad ok tr over -> tracks bad ok (e :: tr) (nadd over v).
  Proof.
    intros O B [F V]. split; [split; [intros; exact O|exact F]|]. intros X.
    apply Exists_cons in X as [X|X]; [apply (sk_right N K); auto|apply (sk_left N K); auto].
  Qed.
  Lemma tracks_finite {E} (bad ok : E -> Prop) tr over : ~ nonfinite over -> tracks bad ok tr over -> clean bad tr.
  Proof. intros F [_ V] X. exact (F (V X)). Qed.
  Lemma clean_tracks {E} (bad ok : E -> Prop) tr over : clean bad tr -> tracks bad ok tr over.
  Proof. intros C. split; [now apply clean_fwd|]. intros X. destruct (C X). Qed.

  Section G.
    Context {X G U D : Type}.
    Variable c : Cfg N X G U D.
    Variable f : SepFun N X G.
    Variable cb : Callbacks N X G.
    Let P (s : st N X G U D) : Prop := tracks bad_event same_epoch (s_tr s) (s_overall s).
    Let Q (e : @exit N X G U D) : Prop := match e with Xloop s => P s | Xret s => P s | Xub => True end.

    Lemma sgd_body_tracks s : P s -> match body c f cb s with inl s => P s | inr e => Q e end.
    Proof.
      intros H. unfold body. destruct (negb _); [exact H|].
      destruct (sf_evalgrad f (s_shuf s) (s_x s) (s_cf s) _) as [v g].
      destruct (c_up c _ _ _ _) as [u' x']. destruct (c_dp c _ _ _ _) as [d' e'].
      match goal with |- context [sf_num f =? 0] => idtac end.
      destruct (sf_num f =? 0); [exact I|].
      assert (H1 : tracks bad_event same_epoch (Step x' :: EvalGrad (s_x s) (s_cf s) (effective_batch c f s) v g :: s_tr s) (nadd (s_overall s) v)).
      { apply tracks_ok; [exact I|exact (fun b => b)|]. apply tracks_add; [exact I|exact (fun b => b)|exact H]. }
      destruct (_ mod sf_num f =? 0); [|exact H1].
      unfold epoch_end. cbn [s_x s_tr s_overall s_epoch s_term s_i s_last s_shuf].
      match goal with |- context [nisnan ?o || nisinf ?o] => destruct (nisnan o || nisinf o) eqn:NF end.
      - cbn [Q]. unfold P. cbn [s_tr s_overall]. apply tracks_ok; [exact I|exact (fun b => b)|exact H1].
      - destruct (nlt _ _).
        + cbn [Q]. unfold P. cbn [s_tr s_overall]. apply tracks_ok; [exact I|exact (fun b => b)|exact H1].
        + apply finite_test in NF. apply (tracks_finite _ _ _ _ NF) in H1. unfold P. cbn [s_tr s_overall].
          apply clean_tracks. destruct (c_shuffle c); repeat (first [exact H1|apply clean_cons; [exact (fun b => b)|]]).
    Qed.
    Lemma exact_fwd fuel shuf x : forall i acc tr v tr', fwd bad_event same_epoch tr -> exact_loop c f fuel shuf x i acc tr = Some (v, tr') ->
      fwd bad_event same_epoch tr'.
    Proof.
      induction fuel as [|n IH]; intros i acc tr v tr' F; cbn [exact_loop]; destruct (i <? sf_num f); try discriminate; try (now intros [= <- <-]).
      intros H. eapply IH; [|exact H]. split; [intros; exact I|exact F].
    Qed.

    Lemma sgd_end fuel u d step x r : optimize_with c f cb fuel u d step x = Return r ->
      afterwards bad_event same_epoch (r_trace r) /\ (c_exact c = false -> Exists bad_event (r_trace r) -> nonfinite (r_val r)).
    Proof.
      unfold optimize_with.
      assert (P0 : P (init cb x u d step)).
      { apply clean_tracks. repeat (apply clean_cons; [exact (fun b => b)|]). intros X0. inversion X0. }
      pose proof (loop_inv (body c f cb) P Q sgd_body_tracks fuel _ P0) as H.
      destruct (loop _ fuel _) as [|[s|s|]]; try discriminate; cbn [Q] in H.
      - destruct (c_exact c) eqn:Ex.
        + destruct (exact_loop _ _ _ _ _ _ _ _) as [[v tr]|] eqn:L; [|discriminate]. intros [= <-]. cbn [finish r_trace r_val].
          split; [|discriminate]. apply fwd_afterwards. split; [intros; exact I|]. eapply exact_fwd; [|exact L]. exact (proj1 H).
        + intros [= <-]. cbn [finish r_trace r_val]. split; [apply fwd_afterwards; split; [intros; exact I|exact (proj1 H)]|].
          intros _ B. apply ex_rev in B. apply Exists_cons in B as [[]|B]. exact (proj2 H B).
      - intros [= <-]. cbn [finish r_trace r_val]. split; [apply fwd_afterwards; split; [intros; exact I|exact (proj1 H)]|].
        intros _ B. apply ex_rev in B. apply Exists_cons in B as [[]|B]. exact (proj2 H B).
    Qed.
  End G.

  Section E.
    Variable pw : N -> nat -> N.
    Variable c : @ecfg N.
    Variable f : SepFun N (list N) (list N).
    Variable cb : Callbacks N (list N) (list N).
    Let P (s : est) : Prop := tracks bad_event same_epoch (v_tr s) (v_overall s).
    Let Q (e : eexit) : Prop := match e with Eloop s => P s | Eret s => P s | Eub => True end.

    Lemma eve_body_tracks s : P s -> match eve_body pw c f cb s with inl s => P s | inr e => Q e end.
    Proof.
      intros H. unfold eve_body. destruct (negb _); [exact H|].
      destruct (sf_evalgrad f (v_shuf s) (v_x s) (v_cf s) _) as [v g].
      match goal with |- context [EvalGrad ?a ?i ?k v g :: _] =>
        assert (H1 : tracks bad_event same_epoch (EvalGrad a i k v g :: v_tr s) (nadd (v_overall s) v)) by
          (apply tracks_add; [exact I|exact (fun b => b)|exact H]) end.
      destruct (v_term s || _); [exact H1|].
      match goal with |- context [Step ?y :: _] => set (x' := y) end. clearbody x'.
      destruct (sf_num f =? 0); [exact I|].
      apply (tracks_ok _ _ (Step x') _ _ I (fun b => b)) in H1.
      destruct (_ mod sf_num f =? 0); [|exact H1].
      unfold eve_epoch_end. cbn [v_x v_tr v_overall v_epoch v_term v_i v_lastall v_shuf].
      match goal with |- context [nisnan ?o || nisinf ?o] => destruct (nisnan o || nisinf o) eqn:NF end.
      - cbn [Q]. unfold P. cbn [v_tr v_overall]. apply tracks_ok; [exact I|exact (fun b => b)|exact H1].
      - destruct (nlt _ _).
        + cbn [Q]. unfold P. cbn [v_tr v_overall]. apply tracks_ok; [exact I|exact (fun b => b)|exact H1].
        + apply finite_test in NF. apply (tracks_finite _ _ _ _ NF) in H1. unfold P. cbn [v_tr v_overall].
          apply clean_tracks. destruct (e_shuffle c); repeat (first [exact H1|apply clean_cons; [exact (fun b => b)|]]).
    Qed.
    Lemma eve_exact_fwd fuel shuf x : forall i acc tr v tr', fwd bad_event same_epoch tr -> eve_exact c f fuel shuf x i acc tr = Some (v, tr') ->
      fwd bad_event same_epoch tr'.
    Proof.
      induction fuel as [|n IH]; intros i acc tr v tr' F; cbn [eve_exact]; destruct (i <? sf_num f); try discriminate; try (now intros [= <- <-]).
      intros H. eapply IH; [|exact H]. split; [intros; exact I|exact F].
    Qed.

    Lemma eve_end fuel x r : eve_optimize pw c f cb fuel x = Return r ->
      afterwards bad_event same_epoch (er_trace r) /\ (e_exact c = false -> Exists bad_event (er_trace r) -> nonfinite (er_val r)).
    Proof.
      unfold eve_optimize.
      assert (P0 : P (eve_init x)).
      { apply clean_tracks. repeat (apply clean_cons; [exact (fun b => b)|]). intros X0. inversion X0. }
      pose proof (loop_inv (eve_body pw c f cb) P Q eve_body_tracks fuel _ P0) as H.
      destruct (loop _ fuel _) as [|[s|s|]]; try discriminate; cbn [Q] in H.
      - destruct (e_exact c) eqn:Ex.
        + destruct (eve_exact _ _ _ _ _ _ _ _) as [[v tr]|] eqn:L; [|discriminate]. intros [= <-]. cbn [er_trace er_val].
          split; [|discriminate]. apply (fwd_afterwards bad_event same_epoch (EndOpt (v_x s) :: tr)). split; [intros; exact I|].
          eapply eve_exact_fwd; [|exact L]. exact (proj1 H).
        + intros [= <-]. cbn [er_trace er_val]. split; [apply (fwd_afterwards bad_event same_epoch (EndOpt (v_x s) :: v_tr s)); split; [intros; exact I|exact (proj1 H)]|].
          intros _ B. apply (ex_rev bad_event (EndOpt (v_x s) :: v_tr s)) in B. apply Exists_cons in B as [[]|B]. exact (proj2 H B).
      - intros [= <-]. cbn [er_trace er_val]. split; [apply (fwd_afterwards bad_event same_epoch (EndOpt (v_x s) :: v_tr s)); split; [intros; exact I|exact (proj1 H)]|].
        intros _ B. apply (ex_rev bad_event (EndOpt (v_x s) :: v_tr s)) in B. apply Exists_cons in B as [[]|B]. exact (proj2 H B).
    Qed.
  End E.
End S.
