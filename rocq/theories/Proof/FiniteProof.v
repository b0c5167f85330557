(** Runs end when the objective is no longer finite. *)
From Coq Require Import List Arith Bool Lia SpecFloat ZArith.
From Verif.Base Require Import Num Instances Vec Loop Size.
From Verif.Model Require Import VarRed BigBatch Spalera Sgd ParallelSgd Lookahead GradientDescent CD Common.
From Verif.Spec Require Import FiniteSpec.
Import ListNotations.

Lemma F64_sticky : sticky F64.
Proof.
  assert (A : forall a b : F64, nonfinite a -> nonfinite (nadd a b)).
  { intros a b [H|H]; destruct a as [s|s| |s m e]; try discriminate.
    - left. reflexivity.
    - destruct b as [t|t| |t k d]; cbn; try (right; reflexivity); [|left; reflexivity].
      destruct (Bool.eqb s t); [right|left]; reflexivity. }
  constructor; [exact A| |].
  - intros a b H. assert (C : nadd a b = nadd b a \/ nonfinite (nadd a b)).
    { destruct H as [H|H]; destruct b as [t|t| |t k d]; try discriminate; right.
      - destruct a; left; reflexivity.
      - destruct a as [s|s| |s m e]; cbn; try (right; reflexivity); [|left; reflexivity].
        destruct (Bool.eqb s t); [right|left]; reflexivity. }
    destruct C as [->|C]; [now apply A|exact C].
  - intros a b [H|H]; destruct a as [s|s| |s m e]; try discriminate.
    + left. destruct b; reflexivity.
    + destruct b as [t|t| |t k d]; cbn; try (right; reflexivity); left; reflexivity.
Qed.

Lemma nonfinite_test {N : Num} (v : N) : nisnan v || nisinf v = true <-> nonfinite v.
Proof. unfold nonfinite. rewrite orb_true_iff. reflexivity. Qed.
Lemma finite_test {N : Num} (v : N) : nisnan v || nisinf v = false -> ~ nonfinite v.
Proof. intros H C. apply nonfinite_test in C. congruence. Qed.

(** ** Histories, newest event first *)
Section Hist.
  Context {E : Type}.
  Variables bad ok : E -> Prop.
  Fixpoint fwd (tr : list E) : Prop :=
    match tr with [] => True | e :: r => (Exists bad r -> ok e) /\ fwd r end.
  Definition clean (tr : list E) : Prop := ~ Exists bad tr.
  Lemma clean_cons e tr : ~ bad e -> clean tr -> clean (e :: tr).
  Proof. intros H C X. apply Exists_cons in X as [X|X]; auto. Qed.
  Lemma clean_fwd tr : clean tr -> fwd tr.
  Proof.
    induction tr as [|e tr IH]; intros C; [exact I|]. split.
    - intros X. exfalso. apply C. now apply Exists_cons_tl.
    - apply IH. intros X. apply C. now apply Exists_cons_tl.
  Qed.
  Lemma fwd_app : forall post e pre, fwd (post ++ e :: pre) -> bad e -> Forall ok post.
  Proof.
    induction post as [|a post IH]; intros e pre H B; constructor.
    - apply (proj1 H). apply Exists_app. right. now apply Exists_cons_hd.
    - apply (IH e pre (proj2 H) B).
  Qed.
  Lemma fwd_afterwards tr : fwd tr -> afterwards bad ok (rev tr).
  Proof.
    intros H pre e post E0 B. apply (f_equal (@rev E)) in E0. rewrite rev_involutive, rev_app_distr in E0. cbn [rev] in E0.
    rewrite <- app_assoc in E0. cbn [app] in E0. subst tr. apply fwd_app in H; [|exact B].
    rewrite <- (rev_involutive post). apply Forall_rev. exact H.
  Qed.
  Lemma ex_rev tr : Exists bad (rev tr) -> Exists bad tr.
  Proof. rewrite !Exists_exists. intros (e & H & B). exists e. split; [now apply in_rev|exact B]. Qed.
End Hist.

(** ** Optimizers with whole-function evaluations *)
Section Whole.
  Context {N : Num}.

  Lemma gd_end (h : N) max tol f cb fuel x r : gd h max tol f cb fuel x = Some r ->
    afterwards bad_ev only_end (o_tr r) /\ (Exists bad_ev (o_tr r) -> nonfinite (o_val r)).
  Proof.
    unfold gd. set (tr0 := [Begin x]). assert (C0 : clean bad_ev tr0) by (apply clean_cons; [exact (fun b => b)|intros X; inversion X]).
    clearbody tr0. generalize 1 (nmax (n := N)) false.
    revert x tr0 C0. induction fuel as [|n IH]; intros x tr C i last term; cbn [gd_loop].
    - destruct (negb (negb (i =? bound max) && negb term)); [|discriminate]. intros [= <-]. cbn [gd_done o_tr o_val]. split.
      + apply fwd_afterwards. split; [intros; exact I|now apply clean_fwd].
      + intros X. exfalso. apply ex_rev in X. apply Exists_cons in X as [[]|X]. exact (C X).
    - destruct (negb (negb (i =? bound max) && negb term)).
      { intros [= <-]. cbn [gd_done o_tr o_val]. split.
        + apply fwd_afterwards. split; [intros; exact I|now apply clean_fwd].
        + intros X. exfalso. apply ex_rev in X. apply Exists_cons in X as [[]|X]. exact (C X). }
      destruct (f x) as [v g]. destruct (nisnan v || nisinf v) eqn:NF.
      + intros [= <-]. cbn [gd_done o_tr o_val]. split; [|intros _; now apply nonfinite_test].
        apply fwd_afterwards. split; [intros; exact I|]. split; [intros X; exfalso; exact (C X)|now apply clean_fwd].
      + assert (C1 : clean bad_ev (EvG x v g (cs_grad cb tr x v g) :: tr)) by (apply clean_cons; [exact (finite_test v NF)|exact C]).
        destruct (nlt (nabs (nsub last v)) tol).
        * intros [= <-]. cbn [gd_done o_tr o_val]. split; [apply fwd_afterwards; split; [intros; exact I|now apply clean_fwd]|].
          intros X. exfalso. apply ex_rev in X. apply Exists_cons in X as [[]|X]. exact (C1 X).
        * apply IH. apply clean_cons; [exact (fun b => b)|exact C1].
  Qed.

  Lemma cd_end (h tol : N) ui max (f : list (list N) -> N) pg policy cb fuel x r :
    cd h max tol ui f pg policy cb fuel x = Ret r ->
    afterwards bad_ev only_end (o_tr r) /\ (Exists bad_ev (o_tr r) -> nonfinite (o_val r)).
  Proof.
    unfold cd. set (tr0 := [Begin x]). assert (C0 : clean bad_ev tr0) by (apply clean_cons; [exact (fun b => b)|intros X; inversion X]).
    clearbody tr0.
    assert (FIN : forall x tr, clean bad_ev tr -> afterwards bad_ev only_end (o_tr (cd_final f x tr)) /\
      (Exists bad_ev (o_tr (cd_final f x tr)) -> nonfinite (o_val (cd_final f x tr)))).
    { intros y tr C. cbn [cd_final o_tr o_val]. split.
      - apply fwd_afterwards. split; [intros; exact I|]. split; [intros X; exfalso; exact (C X)|now apply clean_fwd].
      - intros X. apply ex_rev in X. apply Exists_cons in X as [[]|X]. apply Exists_cons in X as [X|X]; [exact X|exfalso; exact (C X)]. }
    generalize 1 (n0 (n := N)) (nmax (n := N)) false.
    revert x tr0 C0. induction fuel as [|n IH]; intros x tr C i ov last term; cbn [cd_loop].
    - destruct (negb (negb (i =? bound max) && negb term)); [|discriminate]. intros [= <-]. now apply FIN.
    - destruct (negb (negb (i =? bound max) && negb term)); [intros [= <-]; now apply FIN|].
      destruct (policy i x) as [j|]; [|discriminate]. set (g' := cs_grad cb tr x ov (pg x j)).
      assert (C1 : clean bad_ev (Gr x j (pg x j) g' :: tr)) by (apply clean_cons; [exact (fun b => b)|exact C]).
      destruct (term || cs_stop cb (Gr x j (pg x j) g' :: tr)); [intros [= <-]; now apply FIN|].
      destruct (negb ((j <? length x) && (j <? length g'))); [discriminate|]. destruct (ui =? 0); [discriminate|].
      match goal with |- context [St ?y :: _] => set (x' := y) end.
      assert (C2 : clean bad_ev (St x' :: Gr x j (pg x j) g' :: tr)) by (apply clean_cons; [exact (fun b => b)|exact C1]).
      destruct (i mod ui =? 0); [|now apply IH].
      destruct (nisnan (f x') || nisinf (f x')) eqn:NF; cbn [orb].
      + intros [= <-]. cbn [o_tr o_val]. split; [|intros _; now apply nonfinite_test].
        apply (fwd_afterwards bad_ev only_end (End x' :: Ev x' (f x') :: St x' :: Gr x j (pg x j) g' :: tr)). split; [intros; exact I|].
        split; [intros X; exfalso; exact (C2 X)|now apply clean_fwd].
      + assert (C3 : clean bad_ev (Ev x' (f x') :: St x' :: Gr x j (pg x j) g' :: tr)) by (apply clean_cons; [exact (finite_test _ NF)|exact C2]).
        destruct (nlt (nabs (nsub last (f x'))) tol); [|now apply IH].
        intros [= <-]. cbn [o_tr o_val]. split.
        * apply (fwd_afterwards bad_ev only_end (End x' :: Ev x' (f x') :: St x' :: Gr x j (pg x j) g' :: tr)).
          split; [intros; exact I|now apply clean_fwd].
        * intros X. exfalso. change (Exists bad_ev (rev (End x' :: Ev x' (f x') :: St x' :: Gr x j (pg x j) g' :: tr))) in X.
          apply ex_rev in X. apply Exists_cons in X as [[]|X]. exact (C3 X).
  Qed.

  Lemma psgd_end max tol shuffle T share f step perm cbE grad cbG cbS sched n fuel x0 (v : N) x tr :
    psgd max tol shuffle T share f step perm cbE grad cbG cbS sched n fuel x0 = Ret (v, x, tr) ->
    afterwards bad_oev only_oend tr /\ (Exists bad_oev tr -> nonfinite v).
  Proof.
    unfold psgd. set (tr0 := [OBegin x0]). assert (C0 : clean bad_oev tr0) by (apply clean_cons; [exact (fun b => b)|intros X; inversion X]).
    clearbody tr0. generalize 1 (seq 0 n) (nmax (n := N)) false. revert x0 tr0 C0.
    assert (FIN : forall y (t : list (oev N)), clean bad_oev t ->
      afterwards bad_oev only_oend (rev (OEnd y :: t)) /\ (Exists bad_oev (rev (OEnd y :: t)) -> False)).
    { intros y t C. split; [apply fwd_afterwards; split; [intros; exact I|now apply clean_fwd]|].
      intros X. apply ex_rev in X. apply Exists_cons in X as [[]|X]. exact (C X). }
    induction fuel as [|m IH]; intros y t C i order last term; cbn [psgd_loop]; [discriminate|].
    destruct ((i =? bound max) || term).
    - intros [= <- <- <-]. destruct (FIN y t C) as [A B]. split; [exact A|]. intros X. destruct (B X).
    - destruct (nisnan (f y) || nisinf (f y)) eqn:NF.
      + intros [= <- <- <-]. split; [|intros _; now apply nonfinite_test].
        apply (fwd_afterwards bad_oev only_oend (OEnd y :: OEval y (f y) :: t)). split; [intros; exact I|]. split; [intros X; exfalso; exact (C X)|now apply clean_fwd].
      + assert (C1 : clean bad_oev (OEval y (f y) :: t)) by (apply clean_cons; [exact (finite_test _ NF)|exact C]).
        destruct (nlt (nabs (nsub last (f y))) tol).
        * intros [= <- <- <-]. destruct (FIN y _ C1) as [A B]. split; [exact A|]. intros X. destruct (B X).
        * destruct (pexec _ _ _ _ _ _ _ _ _) as [s ls]. destruct (finished _ _ _); [|discriminate].
          apply IH. apply clean_cons; [exact (fun b => b)|exact C1].
  Qed.
End Whole.

Section Look.
  Context {N : Num} {B D E : Type}.
  Lemma lookahead_end (base : nat -> B -> list (lev N E) -> list N -> option (B * list N * N * list E)) hm bm k max tol exact
      (dp : D -> list N -> N -> list N -> D * N) nf bs feval stop fuel b d step x r :
    lookahead base hm bm k max tol exact dp nf bs feval stop fuel b d step x = Ret r ->
    afterwards bad_lev only_lend (lr_tr r) /\ (Exists bad_lev (lr_tr r) -> nonfinite (lr_val r)).
  Proof.
    unfold lookahead. match goal with |- context [loop _ _ ?s] => set (s0 := s) end.
    set (Q := fun e : @lexit N B D E => match e with
      | LDone s => clean bad_lev (l_tr s)
      | LConv s => fwd bad_lev only_lend (LEnd (l_x s) :: l_tr s) /\ (Exists bad_lev (l_tr s) -> nonfinite (l_over s))
      | LHang => True end).
    assert (H : match loop (lbody base hm bm k max tol dp stop) fuel s0 with inl s => clean bad_lev (l_tr s) | inr e => Q e end).
    { apply (loop_inv _ (fun s => clean bad_lev (l_tr s)) Q).
      - intros s C. unfold lbody. destruct (negb ((l_i s <? lmax max) && negb (l_term s))); [exact C|].
        destruct (base _ (l_b s) (l_tr s) (l_x s)) as [[[[b' fast] obj] inner]|]; [|exact I].
        destruct (dp (l_d s) (l_x s) (l_step s) fast) as [d' step'].
        destruct (nisnan obj || nisinf obj) eqn:NF; cbn [orb].
        + cbn [Q l_x l_tr l_over]. split; [|intros _; now apply nonfinite_test].
          split; [intros; exact I|]. split; [intros X; exfalso; exact (C X)|now apply clean_fwd].
        + assert (C1 : clean bad_lev (LRun (l_x s) fast obj inner :: l_tr s)) by (apply clean_cons; [exact (finite_test _ NF)|exact C]).
          destruct (nlt (nabs (nsub (l_last s) obj)) tol).
          * cbn [Q l_x l_tr l_over]. split; [split; [intros; exact I|now apply clean_fwd]|]. intros X. destruct (C1 X).
          * cbn [l_tr]. apply clean_cons; [exact (fun b => b)|exact C1].
      - apply clean_cons; [exact (fun b => b)|intros X; inversion X]. }
    destruct (loop _ fuel s0) as [s|[s|s|]]; cbn [Q] in H; try discriminate.
    - assert (FIN : forall v tr, clean bad_lev tr -> afterwards bad_lev only_lend (lr_tr (lfinish s false v tr)) /\
        (Exists bad_lev (lr_tr (lfinish s false v tr)) -> nonfinite (lr_val (lfinish s false v tr)))).
      { intros v tr C. cbn [lfinish lr_tr lr_val]. split; [apply fwd_afterwards; split; [intros; exact I|now apply clean_fwd]|].
        intros X. exfalso. apply ex_rev in X. apply Exists_cons in X as [[]|X]. exact (C X). }
      destruct exact; [|intros [= <-]; now apply FIN].
      assert (LX : forall fuel i acc tr v tr', clean bad_lev tr -> lexact nf bs feval fuel (l_x s) i acc tr = Some (v, tr') -> clean bad_lev tr').
      { clear. induction fuel as [|m IH]; intros i acc tr v tr' C; cbn [lexact]; destruct (i <? nf); try discriminate; try (now intros [= <- <-]).
        intros H. eapply IH; [|exact H]. apply clean_cons; [exact (fun b => b)|exact C]. }
      destruct (lexact nf bs feval fuel (l_x s) 0 n0 (l_tr s)) as [[v tr]|] eqn:L; [|discriminate].
      intros [= <-]. apply FIN. eapply LX; eassumption.
    - intros [= <-]. cbn [lfinish lr_tr lr_val]. destruct H as [A V]. split; [now apply fwd_afterwards|].
      intros X. apply ex_rev in X. apply Exists_cons in X as [[]|X]. exact (V X).
  Qed.
End Look.
