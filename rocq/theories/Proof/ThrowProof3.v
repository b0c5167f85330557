(** What the caller's variable holds whenever code of the caller runs: SGD. *)
From Coq Require Import List Arith Bool.
From Verif.Base Require Import Num Loop Size.
From Verif.Model Require Import Sgd Throw.
From Verif.Spec Require Import ThrowSpec.
From Verif.Proof Require Import ThrowProof.
Import ListNotations.

Section SGD.
  Context {N : Num} {X G U D : Type}.
  Variable c : Cfg N X G U D.
  Variable f : SepFun N X G.
  Variable cb : Callbacks N X G.
  Notation log := (sgd_log c f cb).
  Definition sstep (s : X) (e : event N X G) : X := match e with Step y => y | _ => s end.
  Definition swith (m s : X) (a : act X (event N X G)) : Prop := (match sgd_shown a with Some y => m = y | None => True end) /\ m = s.
  Lemma sreached_fold : forall (h : list (event N X G)) x, fold_left sstep h x = sgd_reached x h.
  Proof.
    unfold sgd_reached, sgd_steps_in. induction h as [|e h IH]; intros x; [reflexivity|]. cbn [fold_left flat_map]. rewrite IH.
    destruct e; cbn [sstep app]; try reflexivity. rewrite last_cons. reflexivity.
  Qed.
  (** [l] leads from a state with iterate [x] and trace [tr] to one with [x'] and [tr'] *)
  Definition leads (x : X) (tr : list (event N X G)) (l : list (act X (event N X G))) (x' : X) (tr' : list (event N X G)) : Prop :=
    memory x l = x' /\ fold_left sstep (told l) x = x' /\ rev tr' = rev tr ++ told l.
  Lemma leads_app x tr l x' tr' l' x2 tr2 : leads x tr l x' tr' -> leads x' tr' l' x2 tr2 -> leads x tr (l ++ l') x2 tr2.
  Proof.
    intros (A1 & A2 & A3) (B1 & B2 & B3). unfold leads. rewrite memory_app, told_app, fold_left_app, A1, A2, B1, B2, B3, A3, <- app_assoc. auto.
  Qed.
  Definition after (s : st N X G U D) (l : list (act X (event N X G))) (o : st N X G U D + exit (N := N) (X := X) (G := G) (U := U) (D := D)) : Prop :=
    match o with
    | inl s' | inr (Xret s') | inr (Xloop s') => leads (s_x s) (s_tr s) l (s_x s') (s_tr s')
    | inr Xub => True
    end.
  Lemma epoch_log s : ok sstep swith (s_x s) (s_x s) (epoch_calls c f s) /\ after s (epoch_calls c f s) (epoch_end c f cb s).
  Proof.
    unfold epoch_calls, epoch_end, swith, after, leads. destruct (nisnan _ || nisinf _); [cbn; auto 8|]. destruct (nlt _ _); [cbn; auto 8|].
    destruct (c_shuffle c); cbn; rewrite <- ?app_assoc; auto 12.
  Qed.
  Lemma body_log s : ok sstep swith (s_x s) (s_x s) (body_calls c f cb s) /\ after s (body_calls c f cb s) (body c f cb s).
  Proof.
    unfold body_calls, body. destruct (negb _); [cbn; unfold leads; rewrite app_nil_r; auto|].
    destruct (sf_evalgrad f _ _ _ _) as [obj g]. destruct (c_up c _ _ _ _) as [u' x']. destruct (c_dp c _ _ _ _) as [d' step'].
    destruct (sf_num f =? 0); [cbn; unfold swith; cbn; auto 10|].
    match goal with |- context [epoch_calls c f ?s0] => set (s1 := s0) end.
    assert (HD : forall l (o : st N X G U D + exit), ok sstep swith (s_x s1) (s_x s1) l /\ after s1 l o ->
      let l' := Fn (s_x s) :: Cb (EvalGrad (s_x s) (s_cf s) (effective_batch c f s) obj g) :: Put x' :: Cb (Step x') :: l in
      ok sstep swith (s_x s) (s_x s) l' /\ after s l' o).
    { intros l o [A B]. cbn zeta. split.
      - cbn [ok sstep]. unfold swith at 1 2 3. cbn [sgd_shown]. auto.
      - assert (Z : forall y tr, leads (s_x s1) (s_tr s1) l y tr -> leads (s_x s) (s_tr s)
          (Fn (s_x s) :: Cb (EvalGrad (s_x s) (s_cf s) (effective_batch c f s) obj g) :: Put x' :: Cb (Step x') :: l) y tr).
        { intros y tr (A1 & A2 & A3). unfold leads. cbn in A1, A2, A3 |- *. rewrite A3, <- !app_assoc. auto. }
        unfold after in *. destruct o as [s'|[s'|s'|]]; auto. }
    destruct (_ =? 0).
    - apply HD. apply epoch_log.
    - apply HD. cbn. unfold leads. rewrite app_nil_r. auto.
  Qed.
  Lemma loop_log : forall fuel s, ok sstep swith (s_x s) (s_x s) (sgd_calls c f cb fuel s) /\ after s (sgd_calls c f cb fuel s) (loop (body c f cb) fuel s).
  Proof.
    induction fuel as [|fuel IH]; intros s; [cbn; unfold leads; rewrite app_nil_r; auto|].
    cbn [sgd_calls loop]. destruct (body_log s) as [A B]. destruct (body c f cb s) as [s'|e] eqn:BE.
    - destruct (IH s') as [C D0]. destruct B as (B1 & B2 & B3). split.
      + apply ok_app; [exact A|]. rewrite B1, B2. exact C.
      + unfold after in *. destruct (loop _ fuel s') as [s2|[s2|s2|]]; auto; eapply leads_app; eauto; split; auto.
    - rewrite app_nil_r. auto.
  Qed.
  Lemma exact_log : forall fuel shuf x i, ok sstep swith x x (exact_calls c f fuel shuf x i) /\
    forall acc tr v tr', exact_loop c f fuel shuf x i acc tr = Some (v, tr') -> leads x tr (exact_calls c f fuel shuf x i) x tr'.
  Proof.
    induction fuel as [|fuel IH]; intros shuf x i; cbn [exact_calls exact_loop].
    - destruct (i <? sf_num f); cbn; split; auto; [discriminate|]. intros acc tr v tr' [= _ <-]. unfold leads. cbn. rewrite app_nil_r. auto.
    - destruct (i <? sf_num f); [|cbn; split; auto; intros acc tr v tr' [= _ <-]; unfold leads; cbn; rewrite app_nil_r; auto].
      destruct (IH shuf x (i + c_batch c)) as [A B]. split.
      + cbn [ok sstep]. unfold swith at 1 2. cbn [sgd_shown]. auto.
      + intros acc tr v tr' H. apply B in H as (H1 & H2 & H3). unfold leads. cbn in *. rewrite H3, <- app_assoc. auto.
  Qed.
  Lemma log_ok fuel u d step x : ok sstep swith x x (log fuel u d step x).
  Proof.
    unfold sgd_log. cbn [ok sstep]. unfold swith at 1 2. cbn [sgd_shown]. split; [auto|]. split; [auto|].
    destruct (loop_log fuel (init cb x u d step)) as [A B]. change (s_x (init cb x u d step)) with x in *. apply ok_app; [exact A|].
    destruct (loop _ fuel _) as [s|[s|s|]]; [exact I| | |exact I]; destruct B as (B1 & B2 & _); change (s_x (init cb x u d step)) with x in *; rewrite B1, B2.
    - destruct (exact_log fuel (s_shuf s) (s_x s) 0) as [C E]. destruct (c_exact c); [|cbn; unfold swith; cbn; auto].
      apply ok_app; [exact C|]. specialize (E n0 (s_tr s)).
      destruct (exact_loop _ _ _ _ _ _ _ _) as [[v tr']|]; [|exact I].
      destruct (E v tr' eq_refl) as (E1 & E2 & _). rewrite E1, E2. cbn. unfold swith. cbn. auto.
    - cbn. unfold swith. cbn. auto.
  Qed.
  Theorem sgd_throw fuel u d step x : at_every_call x (log fuel u d step x)
    (fun m h a => match sgd_shown a with Some y => m = y | None => True end /\ m = sgd_reached x h).
  Proof.
    intros a e b E C. pose proof (ok_all sstep swith _ x x (log_ok fuel u d step x) a e b E C) as H. rewrite sreached_fold in H. exact H.
  Qed.
  Theorem sgd_log_ok fuel u d step x r : optimize_with c f cb fuel u d step x = Return r ->
    told (log fuel u d step x) = r_trace r /\ memory x (log fuel u d step x) = r_x r.
  Proof.
    unfold optimize_with, sgd_log. destruct (loop_log fuel (init cb x u d step)) as [_ B].
    change (told (Cb (BeginOpt x) :: Cb (BeginEpoch x 1 n0) :: ?z)) with (BeginOpt x :: BeginEpoch (N := N) (G := G) x 1 n0 :: told z).
    change (memory x (Cb (BeginOpt x) :: Cb (BeginEpoch x 1 n0) :: ?z)) with (memory x z). rewrite told_app, memory_app.
    destruct (loop _ fuel _) as [s|[s|s|]]; try discriminate; destruct B as (B1 & _ & B3); change (s_x (init cb x u d step)) with x in *; rewrite B1;
      change (rev (s_tr (init cb x u d step))) with [BeginOpt (N := N) (G := G) x; BeginEpoch x 1 n0] in B3.
    - destruct (exact_log fuel (s_shuf s) (s_x s) 0) as [_ E]. destruct (c_exact c).
      + specialize (E n0 (s_tr s)). destruct (exact_loop _ _ _ _ _ _ _ _) as [[v tr']|]; [|discriminate]. intros [= <-].
        destruct (E v tr' eq_refl) as (E1 & _ & E3). cbn [finish r_trace r_x rev]. rewrite told_app, memory_app, E1, E3, B3. cbn. rewrite <- !app_assoc. auto.
      + intros [= <-]. cbn [finish r_trace r_x rev app]. rewrite B3. cbn. auto.
    - intros [= <-]. cbn [finish r_trace r_x rev]. rewrite B3. cbn. auto.
  Qed.
End SGD.
