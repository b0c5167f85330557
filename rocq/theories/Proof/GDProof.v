From Coq Require Import List Arith Bool Lia.
From Verif.Base Require Import Num Vec Size.
From Verif.Model Require Import Common GradientDescent.
From Verif.Spec Require Import CommonSpec GDSpec.
Import ListNotations.

(** Shared list lemmas about traces. *)
Lemma split_snoc {A} (b1 b2 body : list A) e z : body ++ [z] = b1 ++ e :: b2 ->
  (exists b2', b2 = b2' ++ [z] /\ body = b1 ++ e :: b2') \/ (b2 = [] /\ e = z /\ body = b1).
Proof.
  intros H. destruct b2 as [|y b2] using rev_ind.
  - right. apply app_inj_tail in H as [<- <-]. auto.
  - left. clear IHb2. rewrite app_comm_cons, app_assoc in H. apply app_inj_tail in H as [H <-].
    exists b2. auto.
Qed.

Section GD.
  Context {N : Num}.
  Notation vec := (list N).
  Variables (stepSize : N) (maxIterations : nat) (tolerance : N) (f : vec -> N * vec) (cb : CB N vec vec).
  Notation loop := (gd_loop stepSize maxIterations tolerance f cb).
  Notation B := (bound maxIterations).

  Definition good (e : vec * N * vec * vec) : Prop := f (e_at e) = (e_val e, e_grad e).
  Definition clean (body : list (ev N vec vec)) : Prop :=
    forallb (fun e => negb (is_begin e || is_end e)) body = true.

  Lemma gd_loop_spec : forall fuel i ov last term x tr r,
    loop fuel i ov last term x tr = Some r -> i <= B ->
    exists body, o_tr r = rev tr ++ body ++ [End (o_x r)] /\ clean body /\
      chain e_at (e_next stepSize) x (evalgs body) /\ Forall good (evalgs body) /\
      i + length (evalgs body) <= B /\
      o_val r = List.last (map e_val (evalgs body)) ov /\
      ((Forall (fun b => b = false) (stop_tests tolerance last (map e_val (evalgs body))) /\
        o_x r = arrive (e_next stepSize) x (evalgs body) /\ steps_to body = map (e_next stepSize) (evalgs body) /\
        (i + length (evalgs body) = B \/ term = true \/
         exists b1 e b2, body = b1 ++ e :: b2 /\ asks e = true /\ cs_stop cb (e :: rev b1 ++ tr) = true)) \/
       (exists es e, evalgs body = es ++ [e] /\
          stop_tests tolerance last (map e_val (evalgs body)) = repeat false (length es) ++ [true] /\
          o_x r = e_at e /\ steps_to body = map (e_next stepSize) es)) /\
      (term = true -> body = []) /\
      (forall b1 e b2, body = b1 ++ e :: b2 -> asks e = true -> cs_stop cb (e :: rev b1 ++ tr) = true ->
         evalgs b2 = []).
  Proof.
    induction fuel as [|fuel IH]; intros i ov last term x tr r; cbn [gd_loop];
      destruct (negb (negb (i =? B) && negb term)) eqn:Hc; intros H Hi; try discriminate.
    1, 2: injection H as <-; exists []; cbn; repeat split; auto; try lia; [|intros [|? ?] ? ? K; discriminate K];
        left; repeat split; auto; apply negb_true_iff, andb_false_iff in Hc as [Hc|Hc];
        [left; apply negb_false_iff, Nat.eqb_eq in Hc; lia|right; left; apply negb_false_iff in Hc; exact Hc].
    apply negb_false_iff, andb_true_iff in Hc as [Hc1 Hc2].
    apply negb_true_iff in Hc1, Hc2. apply Nat.eqb_neq in Hc1. subst term.
    destruct (f x) as [v g] eqn:Hf. set (g' := cs_grad cb tr x v g) in *.
    set (e0 := (x, v, g, g')).
    assert (Hstop : stop_test tolerance last v = true ->
      exists body, rev (End x :: EvG x v g g' :: tr) = rev tr ++ body ++ [End x] /\ clean body /\
      chain e_at (e_next stepSize) x (evalgs body) /\ Forall good (evalgs body) /\
      i + length (evalgs body) <= B /\ v = List.last (map e_val (evalgs body)) ov /\
      ((Forall (fun b => b = false) (stop_tests tolerance last (map e_val (evalgs body))) /\
        x = arrive (e_next stepSize) x (evalgs body) /\ steps_to body = map (e_next stepSize) (evalgs body) /\
        (i + length (evalgs body) = B \/ false = true \/
         exists b1 e b2, body = b1 ++ e :: b2 /\ asks e = true /\ cs_stop cb (e :: rev b1 ++ tr) = true)) \/
       (exists es e, evalgs body = es ++ [e] /\
          stop_tests tolerance last (map e_val (evalgs body)) = repeat false (length es) ++ [true] /\
          x = e_at e /\ steps_to body = map (e_next stepSize) es)) /\
      (false = true -> body = []) /\
      (forall b1 e b2, body = b1 ++ e :: b2 -> asks e = true -> cs_stop cb (e :: rev b1 ++ tr) = true -> evalgs b2 = [])).
    { intros Hs. exists [EvG x v g g']. cbn. rewrite <- app_assoc. cbn. repeat split; auto; try reflexivity; try lia.
      - right. exists [], e0. cbn. rewrite Hs. auto.
      - intros [|a [|b b1]] e b2 K; try discriminate K. injection K as <- <-. reflexivity. }
    destruct (nisnan v || nisinf v) eqn:Hn.
    { injection H as <-. cbn. apply Hstop. unfold stop_test. rewrite Hn. reflexivity. }
    destruct (nlt (nabs (nsub last v)) tolerance) eqn:Ht.
    { injection H as <-. cbn. apply Hstop. unfold stop_test. rewrite Hn, Ht. reflexivity. }
    clear Hstop.
    assert (Hns : stop_test tolerance last v = false) by (unfold stop_test; rewrite Hn, Ht; reflexivity).
    set (x' := vsub x (vscale stepSize g')) in *.
    apply IH in H; [|lia].
    destruct H as (body & H1 & H2 & H3 & H4 & H5 & H6 & H7 & H8 & H9).
    exists (EvG x v g g' :: St x' :: body).
    change (evalgs (EvG x v g g' :: St x' :: body)) with (e0 :: evalgs body).
    change (steps_to (EvG x v g g' :: St x' :: body)) with (e_next stepSize e0 :: steps_to body).
    split. { rewrite H1. cbn. rewrite <- !app_assoc. reflexivity. }
    split. { exact H2. }
    split. { cbn. split; [reflexivity|exact H3]. }
    split. { constructor; [exact Hf|exact H4]. }
    split. { cbn [length]. lia. }
    split. { rewrite H6. cbn [map]. change (e_val e0) with v. destruct (map e_val (evalgs body)) as [|w l] eqn:E; [reflexivity|].
             change (List.last (v :: w :: l) ov) with (List.last (w :: l) ov).
             clear. revert w; induction l as [|a l IHl]; intros w; [reflexivity|]. cbn in *. apply IHl. }
    split.
    { destruct H7 as [(A & C & D & E)|(es & e & A & C & D & E)].
      - left. cbn [map stop_tests]. change (e_val e0) with v. split; [constructor; assumption|].
        split; [exact C|]. split; [rewrite D; reflexivity|].
        destruct E as [E|[E|(b1 & e & b2 & E1 & E2 & E3)]].
        + left. cbn [length]. lia.
        + right. right. apply orb_true_iff in E as [E|E].
          * apply orb_true_iff in E as [E|E]; [discriminate|]. exists [], (EvG x v g g'), (St x' :: body). auto.
          * exists [EvG x v g g'], (St x'), body. auto.
        + right. right. exists (EvG x v g g' :: St x' :: b1), e, b2. rewrite E1. cbn. rewrite <- !app_assoc. cbn. auto.
      - right. exists (e0 :: es), e. rewrite A. cbn [map stop_tests length repeat app]. change (e_val e0) with v.
        rewrite <- A, C, Hns, E. auto. }
    split; [discriminate|].
    intros b1 e b2 K Ka Ks.
    destruct b1 as [|a [|a' b1]]; cbn [app] in K.
    - injection K as <- <-. cbn in Ks. rewrite Ks in H8. cbn in H8. rewrite (H8 eq_refl). reflexivity.
    - injection K as <- <- <-. cbn in Ks. rewrite Ks in H8. rewrite orb_true_r in H8. rewrite (H8 eq_refl). reflexivity.
    - injection K as <- <- K. apply (H9 b1 e b2); auto. cbn in Ks. rewrite <- !app_assoc in Ks. exact Ks.
  Qed.

  Lemma bound_pos : 1 <= B.
  Proof. destruct maxIterations; cbn; lia. Qed.

  Lemma gd_ok fuel x r : gd stepSize maxIterations tolerance f cb fuel x = Some r ->
    let es := evalgs (o_tr r) in
    bracketed x (o_x r) (o_tr r) /\
    chain e_at (e_next stepSize) x es /\
    Forall (fun e => f (e_at e) = (e_val e, e_grad e)) es /\
    length es <= B - 1 /\
    o_val r = List.last (map e_val es) nmax /\
    ((Forall (fun b => b = false) (stop_tests tolerance nmax (map e_val es)) /\
      o_x r = arrive (e_next stepSize) x es /\ steps_to (o_tr r) = map (e_next stepSize) es /\
      (length es = B - 1 \/ asked cb (o_tr r))) \/
     (exists before e, es = before ++ [e] /\
        stop_tests tolerance nmax (map e_val es) = repeat false (length before) ++ [true] /\
        o_x r = e_at e /\ steps_to (o_tr r) = map (e_next stepSize) before)) /\
    (forall h e rest, asked_at cb (o_tr r) h e rest -> evalgs rest = []).
  Proof.
    intros H. unfold gd in H. apply gd_loop_spec in H; [|apply bound_pos].
    destruct H as (body & H1 & H2 & H3 & H4 & H5 & H6 & H7 & _ & H9).
    cbn [rev app] in H1.
    assert (E1 : evalgs (o_tr r) = evalgs body).
    { rewrite H1. unfold evalgs. cbn. rewrite flat_map_app. cbn. apply app_nil_r. }
    assert (E2 : steps_to (o_tr r) = steps_to body).
    { rewrite H1. unfold steps_to. cbn. rewrite flat_map_app. cbn. apply app_nil_r. }
    cbn zeta. rewrite E1, E2.
    split. { exists body. split; [exact H1|exact H2]. }
    split; [exact H3|]. split; [exact H4|]. split; [lia|]. split; [exact H6|]. split.
    - destruct H7 as [(A & C & D & E)|K]; [|right; exact K]. left. repeat split; auto.
      destruct E as [E|[E|(b1 & e & b2 & Eb & Ea & Es)]]; [left; lia|discriminate|].
      right. exists (rev b1 ++ [Begin x]), e, (b2 ++ [End (o_x r)]). split; [|split; [exact Ea|]].
      + rewrite H1, Eb, rev_app_distr, rev_involutive. cbn. rewrite <- app_assoc. reflexivity.
      + exact Es.
    - intros h e rest (Ht & Ha & Hs). rewrite H1 in Ht.
      destruct (rev h) as [|z rh] eqn:Eh.
      { cbn in Ht. injection Ht as <- _. discriminate Ha. }
      cbn in Ht. injection Ht as <- Ht.
      assert (Hh : h = rev rh ++ [Begin x]).
      { rewrite <- (rev_involutive h), Eh. reflexivity. }
      apply split_snoc in Ht as [(b2' & -> & Eb)|(-> & -> & Eb)].
      + unfold evalgs. rewrite flat_map_app. cbn. rewrite app_nil_r. apply (H9 rh e b2' Eb Ha). rewrite Hh in Hs. exact Hs.
      + discriminate Ha.
  Qed.

  Lemma gd_terminates : forall fuel x, B <= fuel -> exists r, gd stepSize maxIterations tolerance f cb fuel x = Some r.
  Proof.
    intros fuel x Hf. unfold gd.
    assert (K : forall fuel i ov last term x tr, i <= B -> B - i <= fuel ->
      exists r, loop fuel i ov last term x tr = Some r).
    { clear. induction fuel as [|fuel IH]; intros i ov last term x tr Hi Hf; cbn [gd_loop].
      - replace (i =? B) with true by (symmetry; apply Nat.eqb_eq; lia). cbn. eexists; reflexivity.
      - destruct (negb (negb (i =? B) && negb term)) eqn:Hc; [eexists; reflexivity|].
        apply negb_false_iff, andb_true_iff in Hc as [Hc1 Hc2]. apply negb_true_iff, Nat.eqb_neq in Hc1.
        destruct (f x) as [v g]. destruct (nisnan v || nisinf v); [eexists; reflexivity|].
        destruct (nlt _ _); [eexists; reflexivity|]. apply IH; lia. }
    apply K; [apply bound_pos|lia].
  Qed.
End GD.

Lemma gd_categorical n_rows cat ncat : gd_categorical_ok n_rows cat ncat = true <->
  length cat = n_rows /\ length ncat = n_rows /\ forall b, In b cat -> b = false.
Proof.
  unfold gd_categorical_ok.
  destruct (Nat.eqb_spec (length cat) n_rows); cbn; [|split; [discriminate|intuition]].
  destruct (Nat.eqb_spec (length ncat) n_rows); cbn; [|split; [discriminate|intuition]].
  rewrite negb_true_iff. split.
  - intros H. repeat split; auto. intros [] Hb; [|reflexivity].
    assert (existsb (fun b => b) cat = true) by (apply existsb_exists; exists true; auto). congruence.
  - intros (_ & _ & H). destruct (existsb (fun b => b) cat) eqn:E; [|reflexivity].
    apply existsb_exists in E as (b & Hb & ->). apply H in Hb. discriminate.
Qed.
