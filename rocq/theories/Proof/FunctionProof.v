From Coq Require Import Bool.
From Verif.Model Require Import FunctionMixin.

Section P.
  Context {A V G : Type}.
  Definition consistent (u : User A V G) : Prop :=
    (forall k e k' w a, u_eval u = Some (k, e) -> u_ewg u = Some (k', w) -> e a = fst (w a)) /\
    (forall k g k' w a, u_grad u = Some (k, g) -> u_ewg u = Some (k', w) -> g a = snd (w a)).

  Lemma agree (u : User A V G) : consistent u -> forall w, f_ewg u = Some w ->
    (forall e, f_eval u = Some e -> forall a, e a = fst (w a)) /\
    (forall g, f_grad u = Some g -> forall a, g a = snd (w a)).
  Proof.
    destruct u as [oe og ow]. unfold consistent. cbn [u_eval u_grad u_ewg]. intros [C1 C2].
    unfold f_ewg, f_eval, f_grad, resolve, f_ewg_ov, f_eval_ov, f_grad_ov, supplied,
      has_nonconst_signatures, has_const_signatures, has_static_signatures, has, supplied, both, resolve. cbn [u_eval u_grad u_ewg].
    destruct oe as [[[] e]|], og as [[[] g]|], ow as [[[] w0]|]; cbn;
      intros w Hw; try discriminate Hw; injection Hw as <-; cbn;
      (split; [intros e' He a | intros g' Hg a]);
      try discriminate; try (injection He as <-); try (injection Hg as <-); cbn;
      try reflexivity; try (eapply C1; reflexivity); try (eapply C2; reflexivity).
  Qed.

  (* all supplied methods have form k *)
  Definition uniform (u : User A V G) (k : form) : Prop :=
    (forall k' m, u_eval u = Some (k', m) -> k' = k) /\
    (forall k' m, u_grad u = Some (k', m) -> k' = k) /\
    (forall k' m, u_ewg u = Some (k', m) -> k' = k).

  Lemma uniform_ok (u : User A V G) k : uniform u k ->
    (forall k' e, u_eval u = Some (k', e) -> f_eval u = Some e) /\
    (forall k' g, u_grad u = Some (k', g) -> f_grad u = Some g) /\
    (forall k' w, u_ewg u = Some (k', w) -> f_ewg u = Some w) /\
    ((u_eval u <> None /\ u_grad u <> None) \/ u_ewg u <> None ->
       f_eval u <> None /\ f_grad u <> None /\ f_ewg u <> None).
  Proof.
    destruct u as [oe og ow]. unfold uniform. cbn [u_eval u_grad u_ewg]. intros (U1 & U2 & U3).
    assert (oe = None \/ exists e, oe = Some (k, e)) as HE.
    { destruct oe as [[k' e]|]; [right; exists e; rewrite (U1 k' e eq_refl); reflexivity|left; reflexivity]. }
    assert (og = None \/ exists e, og = Some (k, e)) as HG.
    { destruct og as [[k' e]|]; [right; exists e; rewrite (U2 k' e eq_refl); reflexivity|left; reflexivity]. }
    assert (ow = None \/ exists e, ow = Some (k, e)) as HW.
    { destruct ow as [[k' e]|]; [right; exists e; rewrite (U3 k' e eq_refl); reflexivity|left; reflexivity]. }
    clear U1 U2 U3.
    unfold f_ewg, f_eval, f_grad, resolve, f_ewg_ov, f_eval_ov, f_grad_ov, supplied,
      has_nonconst_signatures, has_const_signatures, has_static_signatures, has, supplied, both, resolve. cbn [u_eval u_grad u_ewg].
    destruct HE as [->|[e ->]], HG as [->|[g ->]], HW as [->|[w ->]]; destruct k; cbn;
      (split; [intros k' m H|split; [intros k' m H|split; [intros k' m H|intros H]]]);
      try discriminate H; try (injection H as <- <-; reflexivity);
      try (repeat split; discriminate);
      destruct H as [[H1 H2]|H]; congruence.
  Qed.
End P.
