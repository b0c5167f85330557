From Coq Require Import List Arith Bool ZArith Reals Lra Lia.
From Verif.Base Require Import Num Vec Size Instances.
From Verif.Model Require Import Common FrankWolfe.
From Verif.Spec Require Import CommonSpec GDSpec Gradient FWSpec.
From Verif.Proof Require Import TraceLib.
Import ListNotations.

Section Loop.
  Context {N : Num}.
  Notation vec := (list N).
  Notation entry := (vec * N * vec * vec)%type.
  Variables (maxIterations : nat) (tolerance : N) (f : vec -> N * vec) (lmo : vec -> vec)
            (rule : list (vec * vec) -> vec) (cb : CB N vec vec).
  Variable x0 : vec.
  Notation B := (bound maxIterations).
  Notation loop := (fw_loop maxIterations tolerance f lmo rule cb).
  Notation point := (fw_point lmo rule x0).
  Notation gap := (fw_gap lmo).

  Definition good (es : list entry) : Prop :=
    forall k e, nth_error es k = Some e -> f (e_at e) = (e_val e, e_grad e) /\ e_at e = point es k /\
      exists h, snd e = cs_grad cb h (e_at e) (e_val e) (e_grad e).
  Definition Post (r : Res N vec vec) : Prop :=
    let es := evalgs (o_tr r) in
    bracketed x0 (o_x r) (o_tr r) /\ good es /\ length es < B /\
    o_val r = last (map e_val es) nmax /\ late cb evalg 0 (rev (o_tr r)) /\
    ((Forall (fun e => nlt (gap e) tolerance = false) es /\ o_x r = point es (length es) /\
      steps_to (o_tr r) = map (point es) (seq 1 (length es)) /\ (S (length es) = B \/ asked cb (o_tr r))) \/
     (exists before e, es = before ++ [e] /\ Forall (fun e => nlt (gap e) tolerance = false) before /\
        nlt (gap e) tolerance = true /\ o_x r = e_at e /\
        steps_to (o_tr r) = map (point es) (seq 1 (length before)))).

  Lemma point_app es e k : k <= length es -> point (es ++ [e]) k = point es k.
  Proof. destruct k as [|k]; [reflexivity|]. intros L. cbn [fw_point]. rewrite firstn_app. replace (S k - length es) with 0 by lia.
    rewrite firstn_O, app_nil_r. reflexivity. Qed.
  Lemma good_snoc es e : good es -> f (e_at e) = (e_val e, e_grad e) -> e_at e = point es (length es) ->
    (exists h, snd e = cs_grad cb h (e_at e) (e_val e) (e_grad e)) -> good (es ++ [e]).
  Proof.
    intros Gd F P CG k e' E. destruct (Nat.lt_ge_cases k (length es)) as [L|L].
    - rewrite nth_error_app1 in E by exact L. rewrite point_app by lia. apply Gd, E.
    - assert (k = length es).
      { assert (k < length (es ++ [e])) by (apply nth_error_Some; congruence). rewrite app_length in H. cbn in H. lia. }
      subst k. rewrite nth_error_app2, Nat.sub_diag in E by lia. injection E as <-. rewrite point_app by lia. auto.
  Qed.
  Lemma map_point_app es e k n : k + n <= S (length es) -> map (point (es ++ [e])) (seq k n) = map (point es) (seq k n).
  Proof. intros L. apply map_ext_in. intros j J. apply in_seq in J. apply point_app. lia. Qed.

  Lemma bound_pos' : 1 <= B.
  Proof. destruct maxIterations; cbn; lia. Qed.

  Lemma last_map_snoc (es : list entry) e d : last (map e_val (es ++ [e])) d = e_val e.
  Proof. rewrite map_app. cbn. apply last_last. Qed.

  Lemma fw_loop_ok : forall fuel i cur term x hist tr,
    let es := evalgs (rev tr) in
    S (length es) = i -> i <= B -> open_tr x0 tr -> flag cb false term tr -> good es ->
    cur = last (map e_val es) nmax -> (term = true -> late cb evalg 0 tr) ->
    Forall (fun e => nlt (gap e) tolerance = false) es -> x = point es (length es) ->
    hist = rev (map (fw_pair lmo) es) -> steps_to (rev tr) = map (point es) (seq 1 (length es)) ->
    match loop fuel i cur term x hist tr with
    | Ret r => Post r
    | Bad => False
    | More => i + fuel < B
    end.
  Proof.
    assert (DONE : forall i cur term x tr, let es := evalgs (rev tr) in
      S (length es) = i -> i <= B -> open_tr x0 tr -> flag cb false term tr -> good es ->
      cur = last (map e_val es) nmax -> (term = true -> late cb evalg 0 tr) ->
      Forall (fun e => nlt (gap e) tolerance = false) es -> x = point es (length es) ->
      steps_to (rev tr) = map (point es) (seq 1 (length es)) ->
      negb (negb (i =? B) && negb term) = true -> Post (fw_done cur x tr)).
    { intros i cur term x tr es L IB OP FL GD CU LT FA PX ST C. unfold Post, fw_done. cbn [o_val o_x o_tr].
      rewrite evalgs_cons, steps_to_cons. cbn [evalg step_to]. rewrite !app_nil_r. fold es.
      split; [apply open_close, OP|]. split; [exact GD|]. split; [lia|]. split; [exact CU|]. split.
      - rewrite rev_involutive. destruct term.
        + apply late_cons with (n := 0); [apply LT; reflexivity|cbn; lia].
        + apply late_quiet. intros A. apply asked_cons in A. destruct A as [A|[A _]]; [|discriminate].
          destruct FL as [_ FL]. specialize (FL (or_intror A)). discriminate.
      - left. split; [exact FA|]. split; [exact PX|]. split; [exact ST|].
        rewrite negb_true_iff, andb_false_iff, !negb_false_iff, Nat.eqb_eq in C. destruct C as [C|C]; [left; lia|].
        right. apply asked_cons. left. destruct FL as [FL _]. destruct (FL C) as [K|K]; [discriminate|exact K]. }
    induction fuel as [|fuel IH]; intros i cur term x hist tr es L IB OP FL GD CU LT FA PX HI ST; cbn [fw_loop];
      destruct (negb _) eqn:C; try (eapply DONE; eassumption).
    { rewrite negb_false_iff, andb_true_iff, !negb_true_iff, Nat.eqb_neq in C. lia. }
    rewrite negb_false_iff, andb_true_iff, !negb_true_iff, Nat.eqb_neq in C. destruct C as [C CT]. subst term.
    assert (NA : ~ asked cb (rev tr)).
    { intros A. destruct FL as [_ FL]. specialize (FL (or_intror A)). discriminate. }
    destruct (f x) as [v g] eqn:F. set (g' := cs_grad cb tr x v g). set (e := (x, v, g, g') : entry).
    set (tr1 := EvG x v g g' :: tr).
    assert (E1 : evalgs (rev tr1) = es ++ [e]) by (unfold tr1; rewrite evalgs_cons; reflexivity).
    assert (S1 : steps_to (rev tr1) = steps_to (rev tr)) by (unfold tr1; rewrite steps_to_cons; apply app_nil_r).
    assert (GD1 : good (es ++ [e])) by (apply good_snoc; [exact GD|exact F|exact PX|exists tr; reflexivity]).
    assert (L1 : late cb evalg 0 tr1).
    { intros h e' rest K. apply asked_at_cons in K. destruct K as [(-> & _)|(r & -> & K)]; [cbn; lia|].
      destruct NA. exists h, e', r. exact K. }
    assert (FL1 : flag cb false (false || cs_stop cb tr1) tr1) by (apply flag_ask; [reflexivity|exact FL]).
    fold (fw_gap lmo e : N). change (nabs (vdot (vsub x (lmo g')) g')) with (fw_gap lmo e : N).
    destruct (nlt (fw_gap lmo e) tolerance) eqn:GP.
    - unfold Post, fw_done. cbn [o_val o_x o_tr].
      rewrite evalgs_cons, steps_to_cons. cbn [evalg step_to]. rewrite !app_nil_r, E1, S1.
      split; [apply open_close, open_cons; [reflexivity|exact OP]|]. split; [exact GD1|].
      split; [rewrite app_length; cbn; lia|]. split; [rewrite last_map_snoc; reflexivity|].
      split; [rewrite rev_involutive; apply late_cons with (n := 0); [exact L1|cbn; lia]|].
      right. exists es, e. split; [reflexivity|]. split; [exact FA|]. split; [exact GP|]. split; [reflexivity|].
      rewrite ST. symmetry. apply map_point_app. lia.
    - set (x' := rule ((x, lmo g') :: hist)). set (tr2 := St x' :: tr1).
      assert (E2 : evalgs (rev tr2) = es ++ [e]) by (unfold tr2; rewrite evalgs_cons, E1; apply app_nil_r).
      assert (PX' : x' = point (es ++ [e]) (length (es ++ [e]))).
      { rewrite app_length, Nat.add_comm. cbn [fw_point length Nat.add]. unfold x'. f_equal.
        rewrite firstn_all2 by (rewrite app_length; cbn; lia). rewrite map_app, rev_app_distr. cbn. rewrite HI. reflexivity. }
      assert (IH' := IH (S i) v ((false || cs_stop cb tr1) || cs_stop cb tr2) x' ((x, lmo g') :: hist) tr2).
      cbn zeta in IH'. rewrite E2 in IH'.
      assert (FA2 : Forall (fun e => nlt (gap e) tolerance = false) (es ++ [e])).
      { apply Forall_app. split; [exact FA|]. apply Forall_cons; [exact GP|apply Forall_nil]. }
      assert (ST2 : steps_to (rev tr2) = map (point (es ++ [e])) (seq 1 (length (es ++ [e])))).
      { unfold tr2. rewrite steps_to_cons, S1, ST, app_length. cbn [length step_to].
        rewrite seq_app, map_app, map_point_app by lia. f_equal. cbn [seq map]. f_equal.
        rewrite PX', app_length. f_equal. cbn. lia. }
      assert (R : match loop fuel (S i) v ((false || cs_stop cb tr1) || cs_stop cb tr2) x' ((x, lmo g') :: hist) tr2 with
                  | Ret r => Post r | Bad => False | More => S i + fuel < B end).
      { apply IH'; try assumption.
        - rewrite app_length. cbn. lia.
        - lia.
        - apply open_cons; [reflexivity|]. apply open_cons; [reflexivity|exact OP].
        - apply flag_ask; [reflexivity|exact FL1].
        - rewrite last_map_snoc. reflexivity.
        - intros _. apply late_cons with (n := 0); [exact L1|cbn; lia].
        - rewrite map_app, rev_app_distr. cbn. rewrite HI. reflexivity. }
      destruct (loop fuel (S i) v _ x' _ tr2) as [r| |]; [exact R|exact R|lia].
  Qed.

  Lemma fw_ok fuel :
    match frank_wolfe maxIterations tolerance f lmo rule cb fuel x0 with
    | Ret r => Post r | Bad => False | More => S fuel < B end.
  Proof.
    apply fw_loop_ok; cbn; auto.
    - apply bound_pos'.
    - apply open_start.
    - apply flag_quiet; [reflexivity|apply flag_nil].
    - intros [|k] e; discriminate.
    - discriminate.
  Qed.
End Loop.
