(** What the caller's variable holds whenever code of the caller runs: CNE. *)
From Coq Require Import List Arith Bool Lia.
From Verif.Base Require Import Num Size Vec SortIdx.
From Verif.Model Require Import Common SA DE CNE ThrowCNE.
From Verif.Spec Require Import ThrowSpec.
From Verif.Proof Require Import ThrowProof.
Import ListNotations.

Section CNE.
  Context {N : Num}.
  Notation vec := (list N).
  Notation acts := (list (act vec (ev N vec vec))).
  Variables (P maxGenerations fl : nat) (mutationProb mutationSize tolerance inf : N).
  Variable f : vec -> N.
  Variable sort_index : list N -> list nat.
  Variable noise : nat -> vec.
  Variable parents : nat -> nat -> nat * nat.
  Variable coin : nat -> nat -> nat -> bool.
  Variables (mu mz : nat -> nat -> vec).
  Variable cb : CB N vec vec.
  Variable x0 : vec.
  Notation gcalls := (cne_gen_calls P mutationProb mutationSize tolerance inf f sort_index parents coin mu mz cb).
  Notation loop := (cne_loop P mutationProb mutationSize tolerance inf f sort_index parents coin mu mz cb).
  Notation log := (cne_log P maxGenerations fl mutationProb mutationSize tolerance inf f sort_index noise parents coin mu mz cb).
  Definition none (s : unit) (e : ev N vec vec) : unit := s.
  Definition same (m : vec) (s : unit) (c : act vec (ev N vec vec)) : Prop := m = shown c.

  Lemma eval_calls : forall pop tr term m,
    ok none same m tt (cne_eval_calls f pop) /\
    rev (fst (evaluate f cb pop tr term)) = rev tr ++ told (cne_eval_calls f pop).
  Proof.
    induction pop as [|y pop IH]; intros tr term m; [cbn; rewrite app_nil_r; auto|].
    cbn [evaluate cne_eval_calls].
    destruct (IH (Ev y (f y) :: St y :: tr) (term || cs_stop cb (St y :: tr) || cs_stop cb (Ev y (f y) :: St y :: tr)) y) as [A B].
    split.
    - cbn [ok]. unfold same at 1 2 3. cbn [shown]. repeat split. exact A.
    - rewrite B. cbn [rev]. rewrite <- !app_assoc. reflexivity.
  Qed.

  Lemma gen_calls : forall e k g pop idx last tr term m,
    ok none same m tt (gcalls e k g pop last tr term) /\
    forall p i t, loop e k g pop idx last tr term = Ret (p, i, t) -> rev t = rev tr ++ told (gcalls e k g pop last tr term).
  Proof.
    intros e. induction k as [|k IH]; intros g pop idx last tr term m; cbn [cne_gen_calls cne_loop].
    { split; [exact I|]. intros p i t [= <- <- <-]. cbn. rewrite app_nil_r. reflexivity. }
    destruct term; [split; [exact I|]; intros p i t [= <- <- <-]; cbn; rewrite app_nil_r; reflexivity|].
    destruct (eval_calls pop tr false m) as [A B].
    destruct (evaluate f cb pop tr false) as [tr1 t1]. cbn [fst] in B.
    destruct (existsb nisnan (map f pop)); [rewrite app_nil_r; split; [exact A|discriminate]|]. cbn zeta.
    destruct (nlt _ _).
    { rewrite app_nil_r. split; [exact A|]. intros p i t [= <- <- <-]. exact B. }
    match goal with |- context [gcalls e k (S g) ?p0 ?l0 ?t0 ?b0] =>
      destruct (IH (S g) p0 (Some (sort_index (map f pop))) l0 t0 b0 (memory m (cne_eval_calls f pop))) as [C D] end.
    split.
    - apply ok_app; [exact A|]. match goal with |- ok _ _ _ ?u _ => destruct u end. exact C.
    - intros p i t H. rewrite (D p i t H), B, told_app, app_assoc. reflexivity.
  Qed.

  Lemma cne_parts : ok none same x0 tt (log x0) /\
    forall r, cne_optimize P maxGenerations fl mutationProb mutationSize tolerance inf f sort_index noise parents coin mu mz cb x0 = Some (Ret r) ->
      told (log x0) = o_tr r /\ memory x0 (log x0) = o_x r.
  Proof.
    unfold cne_log, cne_optimize. destruct (cne_elite P fl) as [e|]; [|split; [exact I|discriminate]]. cbn zeta.
    match goal with |- context [gcalls e maxGenerations 1 ?p0 ?l0 ?t0 ?b0] =>
      destruct (gen_calls e maxGenerations 1 p0 None l0 t0 b0 x0) as [A B]; set (lg := gcalls e maxGenerations 1 p0 l0 t0 b0) in * end.
    split.
    - cbn [ok]. unfold same at 1 2 3. cbn [shown]. split; [reflexivity|]. split; [reflexivity|]. split; [reflexivity|].
      apply ok_app; [exact A|]. destruct (loop _ _ _ _ _ _ _ _) as [[[p [[|i0 i]|]] t]| |]; try exact I.
      cbn. unfold same. cbn [shown]. auto.
    - intros r H. destruct (loop _ _ _ _ _ _ _ _) as [[[p [[|i0 i]|]] t]| |]; try discriminate.
      injection H as <-. cbn [o_tr o_x rev].
      change (told (Fn x0 :: Cb (Ev x0 (f x0)) :: Cb (Begin x0) :: ?z)) with (Ev (G := vec) x0 (f x0) :: Begin x0 :: told z).
      change (memory x0 (Fn x0 :: Cb (Ev x0 (f x0)) :: Cb (Begin x0) :: ?z)) with (memory x0 z).
      rewrite told_app, memory_app, (B _ _ _ eq_refl). split; [|reflexivity]. cbn. rewrite <- !app_assoc. reflexivity.
  Qed.

  Theorem cne_throw : at_every_call x0 (log x0) (fun m h c => m = shown c).
  Proof.
    intros a c b E C. destruct cne_parts as [H _]. exact (ok_all none same _ x0 tt H a c b E C).
  Qed.
End CNE.
