From Coq Require Import List Arith Bool ZArith Lia.
From Verif.Base Require Import Num Vec Size.
From Verif.Model Require Import Common SA AugLag.
From Verif.Spec Require Import AugLagSpec.
From Verif.Proof Require Import SAProof.
Import ListNotations.

Section Opt.
  Context {N : Num} {S : Type}.
  Notation vec := (list N).
  Variables (maxIterations : nat) (thrFactor sigmaFactor tolerance : N).
  Variable f : vec -> N.
  Variable cs : list (vec -> N).
  Variable solve : list (aev N) -> S -> vec -> N -> vec -> vec * S.
  Variable stop : list (aev N) -> bool.
  Notation asked := (a_asked stop).
  Notation loop := (al_loop maxIterations thrFactor sigmaFactor tolerance f cs solve stop).
  Notation reach := (reach thrFactor sigmaFactor tolerance f cs solve).
  Notation inner := (inner solve).
  Notation converged := (converged tolerance f).
  Notation update := (update thrFactor sigmaFactor f cs).
  Notation limit := (al_limit maxIterations).

  Lemma asked_more tr e : asked (rev tr) -> asked (rev (e :: tr)).
  Proof.
    intros (h & e' & rest & E & A). exists h, e', (rest ++ [e]). split; [|exact A].
    cbn [rev]. rewrite E, <- app_assoc. reflexivity.
  Qed.
  Lemma asked_new tr e : a_asks e = true -> stop (e :: tr) = true -> asked (rev (e :: tr)).
  Proof. intros A C. exists tr, e, []. split; [reflexivity|auto]. Qed.
  Lemma asked_inv tr e : asked (rev (e :: tr)) -> asked (rev tr) \/ (a_asks e = true /\ stop (e :: tr) = true).
  Proof.
    intros (h & e' & rest & E & A & C). cbn [rev] in E.
    destruct (exists_last (l := e' :: rest) ltac:(discriminate)) as (r & z & Z). rewrite Z, app_assoc in E.
    apply app_inj_tail in E. destruct E as [E <-]. destruct r as [|e2 r].
    - injection Z as -> ->. right. rewrite app_nil_r in E. apply (f_equal (@rev _)) in E.
      rewrite !rev_involutive in E. subst h. auto.
    - injection Z as -> ->. left. exists h, e2, r. auto.
  Qed.
  Definition TF (term0 term : bool) (tr : list (aev N)) : Prop := term = true <-> term0 = true \/ asked (rev tr).
  Lemma TF_ask term0 term tr e : a_asks e = true -> TF term0 term tr -> TF term0 (term || stop (e :: tr)) (e :: tr).
  Proof.
    unfold TF. intros A H. rewrite orb_true_iff, H. split.
    - intros [[B|B]|B]; [auto|right; apply asked_more, B|right; apply asked_new; assumption].
    - intros [B|B]; [auto|]. apply asked_inv in B. tauto.
  Qed.
  Lemma TF_quiet term0 term tr e : a_asks e = false -> TF term0 term tr -> TF term0 term (e :: tr).
  Proof.
    unfold TF. intros A H. rewrite H. split; intros [B|B]; auto.
    - right. apply asked_more, B.
    - apply asked_inv in B. destruct B as [B|[B _]]; [auto|congruence].
  Qed.
  Definition noend (tr : list (aev N)) : Prop := forallb (fun e => negb (a_end e)) tr = true.
  Definition TI (term0 term : bool) (tr : list (aev N)) : Prop := TF term0 term tr /\ noend tr.
  Lemma TI_ask term0 term tr e : a_asks e = true -> TI term0 term tr -> TI term0 (term || stop (e :: tr)) (e :: tr).
  Proof. intros A [H NE]. split; [apply TF_ask; assumption|]. unfold noend in *. cbn. rewrite NE. destruct e; try discriminate A; reflexivity. Qed.
  Lemma TI_quiet term0 term tr e : a_asks e = false -> a_end e = false -> TI term0 term tr -> TI term0 term (e :: tr).
  Proof. intros A B [H NE]. split; [apply TF_quiet; assumption|]. unfold noend in *. cbn. rewrite NE, B. reflexivity. Qed.

  Definition steps (tr : list (aev N)) : nat := length (filter a_step tr).

  Lemma penalty_ok x term0 : forall k i pen term tr, TI term0 term tr ->
    let '(p, t, tr') := penalty_loop stop k i x pen term tr in
    p = fold_left (fun a c => nadd a (nmul (c x) (c x))) k pen /\ TI term0 t tr' /\ steps tr' = steps tr.
  Proof.
    induction k as [|c k IH]; intros i pen term tr H; cbn [penalty_loop fold_left]; [auto|].
    apply (IH (Datatypes.S i) (nadd pen (nmul (c x) (c x))) _ (ACon x i (nmul (c x) (c x)) :: tr)).
    apply TI_ask; [reflexivity|exact H].
  Qed.

  Lemma lambda_ok x sigma term0 : forall k done lambda term tr,
    cs = done ++ k -> length cs <= length lambda -> TI term0 term tr ->
    exists lambda' t tr', lambda_loop stop k (length done) x lambda sigma term tr = Some (lambda', t, tr') /\
      length lambda' = length lambda /\ TI term0 t tr' /\ steps tr' = steps tr /\
      forall i, nth_error lambda' i =
        match nth_error lambda i, nth_error cs i with
        | Some l, Some c => if i <? length done then Some l else Some (nsub l (nmul sigma (c x)))
        | o, _ => o
        end.
  Proof.
    induction k as [|c k IH]; intros done lambda term tr E L H; cbn [lambda_loop].
    - exists lambda, term, tr. split; [reflexivity|]. split; [reflexivity|]. split; [exact H|]. split; [reflexivity|]. intros i. destruct (nth_error lambda i) as [l|]; [|reflexivity].
      destruct (nth_error cs i) as [c|] eqn:EC; [|reflexivity].
      assert (i < length cs) by (apply nth_error_Some; congruence). rewrite E, app_nil_r in H0.
      apply Nat.ltb_lt in H0. rewrite H0. reflexivity.
    - destruct (nth_error lambda (length done)) as [l|] eqn:EL.
      2: { apply nth_error_None in EL. rewrite E, app_length in L. cbn in L. lia. }
      set (lam := set_nth (length done) (nsub l (nmul sigma (c x))) lambda).
      replace (Datatypes.S (length done)) with (length (done ++ [c])) by (rewrite app_length; cbn; lia).
      destruct (IH (done ++ [c]) lam (term || stop (ACon x (length done) (c x) :: tr)) (ACon x (length done) (c x) :: tr))
        as (lambda' & t & tr' & R & L' & T' & ST & V).
      + rewrite <- app_assoc. exact E.
      + unfold lam. rewrite set_nth_length. exact L.
      + apply TI_ask; [reflexivity|exact H].
      + exists lambda', t, tr'. split; [exact R|]. split; [rewrite L'; apply set_nth_length|].
        split; [exact T'|]. split; [exact ST|]. intros i. rewrite V. rewrite app_length. cbn [length].
        assert (EC : nth_error cs (length done) = Some c).
        { rewrite E, nth_error_app2, Nat.sub_diag by lia. reflexivity. }
        assert (LD : length done < length lambda) by (apply nth_error_Some; congruence).
        destruct (Nat.eq_dec i (length done)) as [->|NE].
        * unfold lam. rewrite set_nth_same by exact LD. rewrite EC, EL.
          replace (length done <? length done + 1) with true by (symmetry; apply Nat.ltb_lt; lia).
          rewrite Nat.ltb_irrefl. reflexivity.
        * unfold lam. rewrite set_nth_other by auto.
          destruct (nth_error lambda i); [|reflexivity]. destruct (nth_error cs i); [|reflexivity].
          replace (i <? length done + 1) with (i <? length done); [reflexivity|].
          destruct (Nat.ltb_spec i (length done)), (Nat.ltb_spec i (length done + 1)); lia || reflexivity.
  Qed.
  Lemma lambda_moved x sigma term0 lambda term tr : length cs <= length lambda -> TI term0 term tr ->
    exists lambda' t tr', lambda_loop stop cs 0 x lambda sigma term tr = Some (lambda', t, tr') /\
      length lambda' = length lambda /\ TI term0 t tr' /\ steps tr' = steps tr /\ moved cs lambda sigma x lambda'.
  Proof.
    intros L H. destruct (lambda_ok x sigma term0 cs [] lambda term tr eq_refl L H) as (l' & t & tr' & R & L' & T' & ST & V).
    exists l', t, tr'. repeat (split; [assumption|]). intros i. rewrite V.
    destruct (nth_error lambda i); [|reflexivity]. destruct (nth_error cs i); reflexivity.
  Qed.

  Notation Ends := (Ends sigmaFactor tolerance f cs solve maxIterations).
  Definition Post (term0 : bool) (a0 : outer N S) (r : ALRes (N:=N) (S:=S)) : Prop :=
    (al_term r = true <-> term0 = true \/ asked (al_tr r)) /\
    (exists body, al_tr r = body ++ [AEnd (al_x r)] /\ forallb (fun e => negb (a_end e)) body = true) /\
    exists k a, reach a0 k a /\ k <= limit /\ steps (al_tr r) = k /\ Ends k a r.

  Lemma noend_rev tr : noend tr -> forallb (fun e => negb (a_end e)) (rev tr) = true.
  Proof.
    unfold noend. rewrite !forallb_forall. intros H e I. apply H, in_rev, I.
  Qed.
  Lemma steps_rev_end (x : vec) tr : steps (rev (AEnd x :: tr)) = steps tr.
  Proof.
    unfold steps. cbn [rev]. rewrite filter_app, app_length. cbn. rewrite Nat.add_0_r.
    induction tr as [|e tr IH]; [reflexivity|]. cbn [rev filter]. rewrite filter_app, app_length, IH. cbn.
    destruct (a_step e); cbn; lia.
  Qed.

  Lemma loop_ok term0 a0 : forall fuel k a term tr,
    reach a0 k a -> k <= limit -> length cs <= length (q_lambda a) -> TI term0 term tr -> steps tr = k ->
    match loop fuel k (q_x a) (q_lambda a) (q_sigma a) (q_thr a) (q_last a) term (q_s a) tr with
    | Ret r => Post term0 a0 r
    | Bad => False
    | More => k + fuel < limit
    end.
  Proof.
    assert (DONE : forall ret x m lambda sigma term s tr k a, TI term0 term tr -> steps tr = k ->
      reach a0 k a -> k <= limit ->
      (forall tr', Ends k a {| al_ret := ret; al_x := x; al_members := m; al_lambda := lambda; al_sigma := sigma;
                     al_term := term; al_inner := s; al_tr := tr' |}) ->
      Post term0 a0 {| al_ret := ret; al_x := x; al_members := m; al_lambda := lambda; al_sigma := sigma;
                     al_term := term; al_inner := s; al_tr := rev (AEnd x :: tr) |}).
    { intros ret x m lambda sigma term s tr k a [H NE] ST R K P. split; [|split].
      - cbn [al_term al_tr]. apply (TF_quiet term0 term tr (AEnd x) eq_refl H).
      - cbn [al_tr al_x rev]. exists (rev tr). split; [reflexivity|]. apply noend_rev, NE.
      - exists k, a. split; [exact R|]. split; [exact K|]. split; [cbn [al_tr]; rewrite steps_rev_end; exact ST|]. apply P. }
    induction fuel as [|fuel IH]; intros k a term tr R K L H ST; cbn [al_loop]; destruct (negb _) eqn:C.
    1, 3: assert (D := DONE false (q_x a) None (q_lambda a) (q_sigma a) term (q_s a) tr k a H ST R K);
      apply D; intros tr'; left; cbn; repeat split;
      rewrite negb_true_iff, andb_false_iff, !negb_false_iff, Nat.eqb_eq in C; exact C.
    - rewrite negb_false_iff, andb_true_iff, !negb_true_iff, Nat.eqb_neq in C. lia.
    - rewrite negb_false_iff, andb_true_iff, !negb_true_iff, Nat.eqb_neq in C. destruct C as [C CT].
      destruct (solve tr (q_s a) (q_lambda a) (q_sigma a) (q_x a)) as [x' s'] eqn:SO.
      assert (IN : inner a x' s') by (exists tr; exact SO).
      set (tr2 := AEval x' (f x') :: AInner (q_x a) x' :: tr).
      assert (H2 : TI term0 (term || stop tr2) tr2).
      { apply (TI_ask term0 term (AInner (q_x a) x' :: tr) (AEval x' (f x')) eq_refl). apply TI_quiet; [reflexivity|reflexivity|exact H]. }
      assert (ST2 : steps tr2 = k) by exact ST.
      destruct (nlt (nabs (nsub (q_last a) (f x'))) tolerance && nlt (nofZ 500000) (q_sigma a))%bool eqn:CV.
      + assert (D := DONE true x' (Some (q_lambda a, q_sigma a)) (q_lambda a) (q_sigma a) _ s' tr2 k a H2 ST2 R K).
        apply D. intros tr'. right. exists x', s'. split; [exact IN|]. split; [reflexivity|]. left.
        apply andb_true_iff in CV. repeat split; apply CV.
      + assert (NC : ~ converged a x').
        { intros [A B]. rewrite A, B in CV. discriminate. }
        pose proof (penalty_ok x' term0 cs 0 n0 _ _ H2) as PO.
        destruct (penalty_loop stop cs 0 x' n0 (term || stop tr2) tr2) as [[pen t3] tr3].
        destruct PO as (PV & H3 & ST3). rewrite ST2 in ST3. fold (violation cs x') in PV.
        destruct t3.
        { assert (D := DONE false x' None (q_lambda a) (q_sigma a) true s' tr3 k a H3 ST3 R K).
          apply D. intros tr'. right. exists x', s'. split; [exact IN|]. split; [reflexivity|]. right; left.
          repeat split; auto. }
        destruct (nlt pen (q_thr a)) eqn:PT.
        * destruct (lambda_moved x' (q_sigma a) term0 (q_lambda a) false tr3 L H3)
            as (lambda' & t4 & tr4 & -> & LL & H4 & ST4 & MV).
          set (b := {| q_x := x'; q_lambda := lambda'; q_sigma := q_sigma a; q_thr := nmul thrFactor pen;
                       q_last := f x'; q_s := s' |}).
          assert (RB : reach a0 (Datatypes.S k) b).
          { apply reach_S with (1 := R) (2 := IN) (3 := NC). repeat split. left. rewrite <- PV. auto. }
          pose proof (IH (Datatypes.S k) b (t4 || stop (AStep x' :: tr4)) (AStep x' :: tr4) RB) as G.
          cbn [q_x q_lambda q_sigma q_thr q_last q_s b] in G.
          destruct (al_loop _ _ _ _ _ _ _ _ fuel _ _ _ _ _ _ _ _ _) as [r| |].
          -- apply G; [lia|rewrite LL; exact L|apply TI_ask; [reflexivity|exact H4]|cbn; fold (steps tr4); lia].
          -- apply G; [lia|rewrite LL; exact L|apply TI_ask; [reflexivity|exact H4]|cbn; fold (steps tr4); lia].
          -- enough (Datatypes.S k + fuel < limit) by lia.
             apply G; [lia|rewrite LL; exact L|apply TI_ask; [reflexivity|exact H4]|cbn; fold (steps tr4); lia].
        * destruct (nle (ndiv nmax (nofZ 2)) (nmul (q_sigma a) sigmaFactor)) eqn:TL.
          { assert (D := DONE false x' None (q_lambda a) (nmul (q_sigma a) sigmaFactor) false s' tr3 k a H3 ST3 R K).
            apply D. intros tr'. right. exists x', s'. split; [exact IN|]. split; [reflexivity|]. right; right.
            rewrite <- PV. repeat split; auto. }
          set (b := {| q_x := x'; q_lambda := q_lambda a; q_sigma := nmul (q_sigma a) sigmaFactor; q_thr := q_thr a;
                       q_last := f x'; q_s := s' |}).
          assert (RB : reach a0 (Datatypes.S k) b).
          { apply reach_S with (1 := R) (2 := IN) (3 := NC). repeat split. right. rewrite <- PV.
            repeat split; auto. unfold too_large. cbn [q_sigma b]. rewrite TL. discriminate. }
          pose proof (IH (Datatypes.S k) b (false || stop (AStep x' :: tr3)) (AStep x' :: tr3) RB) as G.
          cbn [q_x q_lambda q_sigma q_thr q_last q_s b] in G.
          destruct (al_loop _ _ _ _ _ _ _ _ fuel _ _ _ _ _ _ _ _ _) as [r| |].
          -- apply G; [lia|exact L|apply TI_ask; [reflexivity|exact H3]|cbn; fold (steps tr3); lia].
          -- apply G; [lia|exact L|apply TI_ask; [reflexivity|exact H3]|cbn; fold (steps tr3); lia].
          -- enough (Datatypes.S k + fuel < limit) by lia.
             apply G; [lia|exact L|apply TI_ask; [reflexivity|exact H3]|cbn; fold (steps tr3); lia].
  Qed.

  Theorem auglag_ok fuel term0 s lambda sigma x : length cs <= length lambda ->
    match auglag maxIterations thrFactor sigmaFactor tolerance f cs solve stop fuel term0 s lambda sigma x with
    | Ret r => Post term0 {| q_x := x; q_lambda := lambda; q_sigma := sigma; q_thr := nmax; q_last := f x; q_s := s |} r
    | Bad => False
    | More => fuel < limit
    end.
  Proof.
    intros L. unfold auglag.
    assert (H0 : TI term0 term0 []).
    { split; [|reflexivity]. unfold TF. split; [auto|]. intros [A|(h & e & r & A & _)]; [exact A|]. destruct (rev h); discriminate. }
    pose proof (penalty_ok x term0 cs 0 n0 term0 [] H0) as P.
    destruct (penalty_loop stop cs 0 x n0 term0 []) as [[pen t1] tr1]. destruct P as (_ & H1 & ST).
    set (a0 := {| q_x := x; q_lambda := lambda; q_sigma := sigma; q_thr := nmax; q_last := f x; q_s := s |}).
    apply (loop_ok term0 a0 fuel 0 a0 t1 (ABegin x :: tr1)); [constructor|lia|exact L|apply TI_quiet; [reflexivity|reflexivity|exact H1]|exact ST].
  Qed.
End Opt.
