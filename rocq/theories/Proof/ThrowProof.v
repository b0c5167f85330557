(** What the caller's variable holds whenever code of the caller runs. *)
From Coq Require Import List Arith Bool.
From Verif.Base Require Import Num Vec Size.
From Verif.Model Require Import Common GradientDescent CD SPSA SA LBFGS Throw.
From Verif.Spec Require Import ThrowSpec.
Import ListNotations.

Section Ok.
  Context {X E S : Type}.
  Variables (upd : S -> E -> S) (P : X -> S -> act X E -> Prop).
  Fixpoint ok (m : X) (s : S) (l : list (act X E)) : Prop :=
    match l with
    | [] => True
    | Put y :: r => ok y s r
    | Fn p :: r => P m s (Fn p) /\ ok m s r
    | Cb e :: r => P m (upd s e) (Cb e) /\ ok m (upd s e) r
    end.
  Lemma told_app (a b : list (act X E)) : told (a ++ b) = told a ++ told b.
  Proof. apply flat_map_app. Qed.
  Lemma memory_app (a b : list (act X E)) x : memory x (a ++ b) = memory (memory x a) b.
  Proof. apply fold_left_app. Qed.
  Lemma ok_app : forall a b m s, ok m s a -> ok (memory m a) (fold_left upd (told a) s) b -> ok m s (a ++ b).
  Proof. induction a as [|[p|e|y] a IH]; intros b m s A B; cbn in *; [exact B| | |]; intuition. Qed.
  Lemma ok_all : forall l m s, ok m s l -> forall a c b, l = a ++ c :: b -> calls c = true -> P (memory m a) (fold_left upd (told (a ++ [c])) s) c.
  Proof.
    induction l as [|h l IH]; intros m s O a c b E0 C; [destruct a; discriminate|].
    destruct a as [|h' a]; injection E0 as -> ->.
    - destruct c; cbn in *; try discriminate; exact (proj1 O).
    - destruct h' as [p|e|y]; cbn in *; [apply (IH _ _ (proj2 O) a c b)|apply (IH _ _ (proj2 O) a c b)|apply (IH _ _ O a c b)]; auto.
  Qed.
End Ok.
Lemma ok_weaken {X E S S' : Type} (upd : S -> E -> S) (upd' : S' -> E -> S') (P : X -> S -> act X E -> Prop) (P' : X -> S' -> act X E -> Prop) (rel : S -> S' -> Prop) :
  (forall s s' e, rel s s' -> rel (upd s e) (upd' s' e)) -> (forall m s s' c, rel s s' -> P m s c -> P' m s' c) ->
  forall l m s s', rel s s' -> ok upd P m s l -> ok upd' P' m s' l.
Proof.
  intros H1 H2. induction l as [|[p|e|y] l IH]; intros m s s' R O; cbn in *; [exact I| | |].
  - destruct O as [A B]. split; [eapply H2; eauto|eapply IH; eauto].
  - destruct O as [A B]. split; [eapply H2; eauto|eapply IH; eauto].
  - eapply IH; eauto.
Qed.

Section Common.
  Context {N : Num} {X G : Type}.
  Definition stepped (s : X) (e : ev N X G) : X := match e with St y => y | _ => s end.
  Lemma last_cons {A} : forall (l : list A) a c, last (c :: l) a = last l c.
  Proof. induction l as [|d l IH]; intros a c; [reflexivity|]. change (last (c :: d :: l) a) with (last (d :: l) a). rewrite !IH. reflexivity. Qed.
  Lemma reached_fold : forall (h : list (ev N X G)) x, fold_left stepped h x = reached x h.
  Proof.
    unfold reached, steps_in. induction h as [|e h IH]; intros x; [reflexivity|]. cbn [fold_left flat_map]. rewrite IH.
    destruct e; cbn [stepped app]; try reflexivity. rewrite last_cons. reflexivity.
  Qed.
  Definition with_step (m s : X) (c : act X (ev N X G)) : Prop := m = shown c /\ m = s.
End Common.

Section GD.
  Context {N : Num}.
  Notation vec := (list N).
  Variable stepSize : N.
  Variable maxIterations : nat.
  Variable tolerance : N.
  Variable f : vec -> N * vec.
  Variable cb : CB N vec vec.
  Notation gdc := (gd_calls stepSize maxIterations tolerance f cb).
  Lemma gd_ok : forall fuel i last term x tr, ok stepped with_step x x (gdc fuel i last term x tr).
  Proof.
    unfold with_step. induction fuel as [|fuel IH]; intros i last term x tr; cbn [gd_calls]; destruct (negb _); cbn; auto.
    destruct (f x) as [v g]. destruct (nisnan v || nisinf v); cbn; [auto|]. destruct (nlt _ _); cbn; auto 6.
  Qed.
  Lemma gd_same : forall fuel i ov last term x tr r, gd_loop stepSize maxIterations tolerance f cb fuel i ov last term x tr = Some r ->
    o_tr r = rev tr ++ told (gdc fuel i last term x tr) /\ o_x r = memory x (gdc fuel i last term x tr).
  Proof.
    induction fuel as [|fuel IH]; intros i ov last term x tr r; cbn [gd_loop gd_calls]; destruct (negb _); try discriminate;
      [intros [= <-]; auto|intros [= <-]; auto|].
    destruct (f x) as [v g]. destruct (nisnan v || nisinf v); [intros [= <-]; cbn; rewrite <- app_assoc; auto|].
    destruct (nlt _ _); [intros [= <-]; cbn; rewrite <- app_assoc; auto|].
    intros H. apply IH in H as [A B]. cbn. rewrite A, B. cbn. rewrite <- !app_assoc. auto.
  Qed.
  Theorem gd_throw fuel x : at_every_call x (gd_log stepSize maxIterations tolerance f cb fuel x) (fun m h c => m = shown c /\ m = reached x h).
  Proof.
    intros a c b E C. pose proof (ok_all stepped with_step (gd_log stepSize maxIterations tolerance f cb fuel x) x x) as H.
    assert (O : ok stepped with_step x x (gd_log stepSize maxIterations tolerance f cb fuel x)) by (split; [split; reflexivity|apply gd_ok]).
    specialize (H O a c b E C). rewrite reached_fold in H. exact H.
  Qed.
  Theorem gd_log_ok fuel x r : gd stepSize maxIterations tolerance f cb fuel x = Some r ->
    told (gd_log stepSize maxIterations tolerance f cb fuel x) = o_tr r /\ memory x (gd_log stepSize maxIterations tolerance f cb fuel x) = o_x r.
  Proof. intros H. apply gd_same in H as [A B]. rewrite A, B. auto. Qed.
End GD.

Section CD.
  Context {N : Num}.
  Notation mat := (list (list N)).
  Variable stepSize : N.
  Variable maxIterations : nat.
  Variable tolerance : N.
  Variable updateInterval : nat.
  Variable f : mat -> N.
  Variable pg : mat -> nat -> mat.
  Variable policy : nat -> mat -> option nat.
  Variable cb : CB N mat mat.
  Notation cdc := (cd_calls stepSize maxIterations tolerance updateInterval f pg policy cb).
  Notation log := (cd_log stepSize maxIterations tolerance updateInterval f pg policy cb).
  Lemma cd_ok : forall fuel i ov last term x tr, ok stepped with_step x x (cdc fuel i ov last term x tr).
  Proof.
    unfold with_step. induction fuel as [|fuel IH]; intros i ov last term x tr; cbn [cd_calls]; destruct (negb _); try (cbn; auto 8; fail).
    destruct (policy i x) as [j|]; [|exact I]. cbn [ok]. split; [auto|]. split; [auto|]. cbn [stepped].
    destruct (_ || _); [cbn; auto 8|]. destruct (negb _); [exact I|]. cbn [ok]. split; [auto|]. cbn [stepped].
    destruct (updateInterval =? 0); [exact I|]. destruct (_ =? 0); [|apply IH]. cbn [ok]. split; [auto|]. split; [auto|]. cbn [stepped].
    destruct (_ || _); [cbn; auto|apply IH].
  Qed.
  Lemma cd_same : forall fuel i ov last term x tr r, cd_loop stepSize maxIterations tolerance updateInterval f pg policy cb fuel i ov last term x tr = Ret r ->
    o_tr r = rev tr ++ told (cdc fuel i ov last term x tr) /\ o_x r = memory x (cdc fuel i ov last term x tr).
  Proof.
    induction fuel as [|fuel IH]; intros i ov last term x tr r; cbn [cd_loop cd_calls]; destruct (negb (negb _ && _)); try discriminate.
    1,2: intros [= <-]; cbn; rewrite <- app_assoc; auto.
    destruct (policy i x) as [j|]; [|discriminate]. destruct (term || _); [intros [= <-]; cbn; rewrite <- !app_assoc; auto|].
    destruct (negb _); [discriminate|]. destruct (updateInterval =? 0); [discriminate|]. destruct (_ =? 0).
    - destruct (_ || _); [intros [= <-]; cbn; rewrite <- !app_assoc; auto|].
      intros H. apply IH in H as [A B]. cbn. rewrite A, B. cbn. rewrite <- !app_assoc. auto.
    - intros H. apply IH in H as [A B]. cbn. rewrite A, B. cbn. rewrite <- !app_assoc. auto.
  Qed.
  Theorem cd_throw fuel x : at_every_call x (log fuel x) (fun m h c => m = shown c /\ m = reached x h).
  Proof.
    intros a c b E C. pose proof (ok_all stepped with_step (log fuel x) x x) as H.
    assert (O : ok stepped with_step x x (log fuel x)) by (split; [split; reflexivity|apply cd_ok]).
    specialize (H O a c b E C). rewrite reached_fold in H. exact H.
  Qed.
  Theorem cd_log_ok fuel x r : cd stepSize maxIterations tolerance updateInterval f pg policy cb fuel x = Ret r ->
    told (log fuel x) = o_tr r /\ memory x (log fuel x) = o_x r.
  Proof. intros H. apply cd_same in H as [A B]. rewrite A, B. auto. Qed.
End CD.

Section SPSA.
  Context {N : Num}.
  Notation vec := (list N).
  Variables (alpha gamma stepSize evaluationStepSize ak : N).
  Variable maxIterations : nat.
  Variable tolerance : N.
  Variable pw : N -> N -> N.
  Variable f : vec -> N.
  Variable coin : nat -> list bool.
  Variable cb : CB N vec vec.
  Notation plus := (SPSA.plus gamma evaluationStepSize pw coin).
  Notation minus := (SPSA.minus gamma evaluationStepSize pw coin).
  Notation back := (SPSA.back gamma evaluationStepSize pw coin).
  Notation sc := (spsa_calls alpha gamma stepSize evaluationStepSize ak maxIterations tolerance pw f coin cb).
  Notation log := (spsa_log alpha gamma stepSize evaluationStepSize ak maxIterations tolerance pw f coin cb).
  Definition counted (s : vec * nat) (e : ev N vec vec) : vec * nat := match e with St y => (y, S (snd s)) | _ => s end.
  Definition near (m : vec) (s : vec * nat) (c : act vec (ev N vec vec)) : Prop :=
    m = shown c /\ let '(x, k) := s in m = x \/ m = plus k x \/ m = minus k x \/ m = back k x.
  Lemma spsa_ok : forall fuel k ov last term x tr, ok counted near x (x, k) (sc fuel k ov last term x tr).
  Proof.
    unfold near. induction fuel as [|fuel IH]; intros k ov last term x tr; cbn [spsa_calls]; destruct (negb _); try (cbn; auto 10; fail).
    destruct (nisnan ov || nisinf ov); [cbn; auto|]. destruct (nlt _ _); [cbn; auto|].
    cbn [ok]. cbn [counted snd]. split; [auto|]. split; [auto|]. split; [auto|]. split; [auto|].
    destruct (_ || _); cbn [ok counted snd]; [split; [auto 8|]; split; [auto 8|]; split; [auto 8|exact I]|].
    split; [auto|]. split; [auto|]. split; [auto|]. apply IH.
  Qed.
  Lemma spsa_same : forall fuel k ov last term x tr r, spsa_loop alpha gamma stepSize evaluationStepSize ak maxIterations tolerance pw f coin cb fuel k ov last term x tr = Some r ->
    o_tr r = rev tr ++ told (sc fuel k ov last term x tr) /\ o_x r = memory x (sc fuel k ov last term x tr).
  Proof.
    induction fuel as [|fuel IH]; intros k ov last term x tr r; cbn [spsa_loop spsa_calls]; destruct (negb _); try discriminate.
    1,2: intros [= <-]; cbn; rewrite <- !app_assoc; auto.
    destruct (nisnan ov || nisinf ov); [intros [= <-]; auto|]. destruct (nlt _ _); [intros [= <-]; auto|].
    destruct (_ || _); [intros [= <-]; cbn; rewrite <- !app_assoc; auto|].
    intros H. apply IH in H as [A B]. cbn. rewrite A, B. cbn. rewrite <- !app_assoc. auto.
  Qed.
  Lemma counted_fold : forall (h : list (ev N vec vec)) x k, fold_left counted h (x, k) = (reached x h, k + length (steps_in h)).
  Proof.
    unfold reached, steps_in. induction h as [|e h IH]; intros x k; [cbn; rewrite Nat.add_0_r; reflexivity|]. cbn [fold_left flat_map].
    destruct e; cbn [counted snd app]; rewrite IH; try reflexivity. rewrite last_cons. cbn [length]. rewrite <- plus_n_Sm. reflexivity.
  Qed.
  Theorem spsa_throw fuel x : at_every_call x (log fuel x) (fun m h c => m = shown c /\
    let y := reached x h in let k := length (steps_in h) in m = y \/ m = plus k y \/ m = minus k y \/ m = back k y).
  Proof.
    intros a c b E C. pose proof (ok_all counted near (log fuel x) x (x, 0)) as H.
    assert (O : ok counted near x (x, 0) (log fuel x)) by (split; [unfold near; cbn; auto|apply spsa_ok]).
    specialize (H O a c b E C). rewrite counted_fold in H. exact H.
  Qed.
  Theorem spsa_log_ok fuel x r : spsa alpha gamma stepSize evaluationStepSize ak maxIterations tolerance pw f coin cb fuel x = Some r ->
    told (log fuel x) = o_tr r /\ memory x (log fuel x) = o_x r.
  Proof. intros H. apply spsa_same in H as [A B]. rewrite A, B. auto. Qed.
End SPSA.
