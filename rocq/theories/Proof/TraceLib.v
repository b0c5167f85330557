(** Requests and events along a growing history. *)
From Coq Require Import List Arith Bool Lia.
From Verif.Base Require Import Num.
From Verif.Model Require Import Common.
From Verif.Spec Require Import CommonSpec.
Import ListNotations.

Lemma rev_cons_split {A} (tr h : list A) (e e' : A) rest :
  rev (e :: tr) = rev h ++ e' :: rest ->
  (rest = [] /\ e' = e /\ h = tr) \/ (exists rest', rest = rest' ++ [e] /\ rev tr = rev h ++ e' :: rest').
Proof.
  intros E. cbn [rev] in E.
  destruct (exists_last (l := e' :: rest) ltac:(discriminate)) as (r & z & Z). rewrite Z, app_assoc in E.
  apply app_inj_tail in E. destruct E as [E <-]. destruct r as [|e2 r].
  - injection Z as -> ->. left. rewrite app_nil_r in E. apply (f_equal (@rev _)) in E.
    rewrite !rev_involutive in E. auto.
  - injection Z as -> ->. right. exists r. auto.
Qed.

Section Lib.
  Context {N : Num} {X G : Type}.
  Notation ev := (ev N X G).
  Variable cb : CB N X G.

  Lemma asked_at_cons (tr : list ev) e h e' rest : asked_at cb (rev (e :: tr)) h e' rest <->
    (rest = [] /\ e' = e /\ h = tr /\ asks e = true /\ cs_stop cb (e :: tr) = true) \/
    (exists rest', rest = rest' ++ [e] /\ asked_at cb (rev tr) h e' rest').
  Proof.
    split.
    - intros (E & A & C). apply rev_cons_split in E. destruct E as [(-> & -> & ->)|(r & -> & E)]; [left; auto|].
      right. exists r. repeat split; auto.
    - intros [(-> & -> & -> & A & C)|(r & -> & E & A & C)]; [repeat split; auto|].
      split; [|auto]. cbn [rev]. rewrite E, <- app_assoc. reflexivity.
  Qed.
  Lemma asked_nil : ~ asked cb [].
  Proof. intros (h & e & rest & E & _). destruct (rev h); discriminate. Qed.
  Lemma asked_cons (tr : list ev) e : asked cb (rev (e :: tr)) <->
    asked cb (rev tr) \/ (asks e = true /\ cs_stop cb (e :: tr) = true).
  Proof.
    split.
    - intros (h & e' & rest & A). apply asked_at_cons in A. destruct A as [(_ & _ & _ & A)|(r & _ & A)]; [auto|].
      left. exists h, e', r. exact A.
    - intros [(h & e' & r & A)|[A C]].
      + exists h, e', (r ++ [e]). apply asked_at_cons. right. exists r. auto.
      + exists tr, e, []. apply asked_at_cons. left. auto.
  Qed.
  Lemma asked_one e : asks e = false -> ~ asked cb [e].
  Proof. intros A H. apply (asked_cons [] e) in H. destruct H as [H|[H _]]; [exact (asked_nil H)|congruence]. Qed.

  (** the flag [terminate] *)
  Definition flag (t0 t : bool) (tr : list ev) : Prop := t = true <-> t0 = true \/ asked cb (rev tr).
  Lemma flag_ask t0 t tr e : asks e = true -> flag t0 t tr -> flag t0 (t || cs_stop cb (e :: tr)) (e :: tr).
  Proof. unfold flag. intros A H. rewrite orb_true_iff, H, asked_cons. tauto. Qed.
  Lemma flag_quiet t0 t tr e : asks e = false -> flag t0 t tr -> flag t0 t (e :: tr).
  Proof. unfold flag. intros A H. rewrite H, asked_cons. intuition congruence. Qed.
  Lemma flag_nil t0 : flag t0 t0 [].
  Proof. unfold flag. split; [auto|]. intros [H|H]; [exact H|]. destruct (asked_nil H). Qed.

  (** what happens after a request *)
  Definition late {A : Type} (sel : ev -> list A) (n : nat) (tr : list ev) : Prop :=
    forall h e rest, asked_at cb (rev tr) h e rest -> length (flat_map sel rest) <= n.
  Lemma late_quiet {A} (sel : ev -> list A) n tr : ~ asked cb (rev tr) -> late sel n tr.
  Proof. intros H h e rest K. exfalso. apply H. exists h, e, rest. exact K. Qed.
  Lemma late_cons {A} (sel : ev -> list A) n m tr e : late sel n tr -> n + length (sel e) <= m -> late sel m (e :: tr).
  Proof.
    intros L M h e' rest K. apply asked_at_cons in K. destruct K as [(-> & _)|(r & -> & K)]; [cbn; lia|].
    rewrite flat_map_app, app_length. cbn. rewrite app_nil_r. specialize (L _ _ _ K). lia.
  Qed.
  Lemma late_weaken {A} (sel : ev -> list A) n m tr : late sel n tr -> n <= m -> late sel m tr.
  Proof. intros L M h e rest K. specialize (L _ _ _ K). lia. Qed.

  (** events with and without Begin / End *)
  Definition inside (e : ev) : bool := negb (is_begin e || is_end e).
  Definition open_tr (x0 : X) (tr : list ev) : Prop :=
    exists body, tr = body ++ [Begin x0] /\ forallb inside body = true.
  Lemma open_start x0 : open_tr x0 [Begin x0].
  Proof. exists []. auto. Qed.
  Lemma open_cons x0 tr e : inside e = true -> open_tr x0 tr -> open_tr x0 (e :: tr).
  Proof. intros I (b & -> & C). exists (e :: b). cbn. rewrite I, C. auto. Qed.
  Lemma open_close x0 xf tr : open_tr x0 tr -> bracketed x0 xf (rev (End xf :: tr)).
  Proof.
    intros (b & -> & C). exists (rev b). cbn [rev]. rewrite rev_app_distr. cbn. split; [reflexivity|].
    rewrite forallb_forall in C |- *. intros e I. apply C, in_rev, I.
  Qed.

  Lemma flat_rev_cons {A} (sel : ev -> list A) (tr : list ev) (e : ev) : flat_map sel (rev (e :: tr)) = flat_map sel (rev tr) ++ sel e.
  Proof. cbn [rev]. rewrite flat_map_app. cbn. rewrite app_nil_r. reflexivity. Qed.
  Lemma evalgs_cons (tr : list ev) (e : ev) : evalgs (rev (e :: tr)) = evalgs (rev tr) ++ evalg e.
  Proof. apply flat_rev_cons. Qed.
  Lemma evals_cons (tr : list ev) (e : ev) : evals (rev (e :: tr)) = evals (rev tr) ++ eval e.
  Proof. apply flat_rev_cons. Qed.
  Lemma steps_to_cons (tr : list ev) (e : ev) : steps_to (rev (e :: tr)) = steps_to (rev tr) ++ step_to e.
  Proof. apply flat_rev_cons. Qed.
End Lib.
