From Coq Require Import List Arith Bool Lia.
From Verif.Base Require Import Num Vec Size Argbest.
From Verif.Model Require Import Common CD.
From Verif.Spec Require Import CommonSpec GDSpec CDSpec.
From Verif.Proof Require Import GDProof.
Import ListNotations.

Section CD.
  Context {N : Num}.
  Notation mat := (list (list N)).
  Variables (stepSize : N) (maxIterations : nat) (tolerance : N) (updateInterval : nat).
  Variables (f : mat -> N) (pg : mat -> nat -> mat) (policy : nat -> mat -> option nat) (cb : CB N mat mat).
  Notation loop := (cd_loop stepSize maxIterations tolerance updateInterval f pg policy cb).
  Notation B := (bound maxIterations).
  Notation clean body := (forallb (fun e => negb (is_begin e || is_end e)) body = true).

  Lemma sub_col_moves : forall j x g d, j < length x -> nth_error g j = Some d ->
    moves_column stepSize x j g (sub_col j (vscale stepSize d) x).
  Proof.
    intros j x g d Hj Hg. unfold moves_column. revert x Hj.
    assert (A : forall j (x : mat) (c : list N), length (sub_col j c x) = length x).
    { clear. induction j as [|j IH]; intros [|y x] c; cbn; auto. }
    assert (C : forall j (x : mat) (c : list N) k, k <> j -> nth_error (sub_col j c x) k = nth_error x k).
    { clear. induction j as [|j IH]; intros [|y x] c [|k] H; cbn; auto; try congruence. }
    assert (D : forall j (x : mat) (c : list N), j < length x -> exists y, nth_error x j = Some y /\ nth_error (sub_col j c x) j = Some (vsub y c)).
    { clear. induction j as [|j IH]; intros [|y x] c H; cbn in *; try lia; [eauto|]. apply IH. lia. }
    intros x Hj. split; [apply A|]. split; [intros k Hk; apply C; exact Hk|].
    destruct (D j x (vscale stepSize d) Hj) as (c & E1 & E2). exists c, d. auto.
  Qed.

  Definition picked (i : nat) (es : list (mat * nat * mat * mat)) : Prop :=
    forall k e, nth_error es k = Some e -> policy (i + k) (p_at e) = Some (p_feat e) /\ p_grad e = pg (p_at e) (p_feat e).

  Lemma cd_loop_spec : forall fuel i ov last term x tr r,
    loop fuel i ov last term x tr = Ret r -> i <= B ->
    exists body, o_tr r = rev tr ++ body ++ [End (o_x r)] /\ clean body /\
      o_val r = f (o_x r) /\
      Forall (fun p => snd p = f (fst p)) (evals body) /\
      walk stepSize x (grads body) (steps_to body) /\
      o_x r = List.last (steps_to body) x /\
      picked i (grads body) /\
      i + length (grads body) <= B /\
      (i + length (grads body) = B \/ term = true \/
       (exists b1 e b2, body = b1 ++ e :: b2 /\ asks e = true /\ cs_stop cb (e :: rev b1 ++ tr) = true) \/
       (exists ps p, evals body = ps ++ [p] /\ stop_test tolerance (List.last (map snd ps) last) (snd p) = true)) /\
      (term = true -> grads body = []) /\
      (forall b1 e b2, body = b1 ++ e :: b2 -> asks e = true -> cs_stop cb (e :: rev b1 ++ tr) = true ->
         grads b2 = []).
  Proof.
    induction fuel as [|fuel IH]; intros i ov last term x tr r; cbn [cd_loop];
      destruct (negb (negb (i =? B) && negb term)) eqn:Hc; intros H Hi; try discriminate.
    1, 2: injection H as <-; exists [Ev x (f x)]; cbn; rewrite <- app_assoc; cbn;
        (split; [reflexivity|]); (split; [reflexivity|]); (split; [reflexivity|]);
        (split; [constructor; [reflexivity|constructor]|]); (split; [reflexivity|]); (split; [reflexivity|]);
        (split; [intros [|k] e K; discriminate K|]); (split; [lia|]);
        (split; [apply negb_true_iff, andb_false_iff in Hc as [Hc|Hc];
          [left; apply negb_false_iff, Nat.eqb_eq in Hc; lia|right; left; apply negb_false_iff in Hc; exact Hc]|]);
        (split; [reflexivity|]);
        intros [|a [|b b1]] e b2 K; try discriminate K; injection K as <- <-; reflexivity.
    apply negb_false_iff, andb_true_iff in Hc as [Hc1 Hc2].
    apply negb_true_iff in Hc1, Hc2. apply Nat.eqb_neq in Hc1. subst term.
    destruct (policy i x) as [j|] eqn:Hp; [|discriminate].
    set (g := pg x j) in *. set (g' := cs_grad cb tr x ov g) in *. cbn [orb] in H.
    destruct (cs_stop cb (Gr x j g g' :: tr)) eqn:Hs1.
    { injection H as <-. exists [Gr x j g g'; Ev x (f x)]. cbn. rewrite <- !app_assoc. cbn.
      split; [reflexivity|]. split; [reflexivity|]. split; [reflexivity|].
      split; [constructor; [reflexivity|constructor]|]. split; [split; reflexivity|]. split; [reflexivity|].
      split; [intros [|k] e K; [|destruct k; discriminate K]; injection K as <-; rewrite Nat.add_0_r; split; [exact Hp|reflexivity]|].
      split; [lia|]. split; [right; right; left; exists [], (Gr x j g g'), [Ev x (f x)]; auto|]. split; [discriminate|].
      intros [|a [|b [|c b1]]] e b2 K; try discriminate K; injection K; intros; subst; reflexivity. }
    destruct (negb ((j <? length x) && (j <? length g'))) eqn:Hb; [discriminate|].
    apply negb_false_iff, andb_true_iff in Hb as [Hb1 Hb2]. apply Nat.ltb_lt in Hb1, Hb2.
    assert (Hmv : moves_column stepSize x j g' (sub_col j (vscale stepSize (nth j g' [])) x)).
    { apply sub_col_moves; [exact Hb1|]. apply nth_error_nth'. exact Hb2. }
    set (x' := sub_col j (vscale stepSize (nth j g' [])) x) in *.
    destruct (updateInterval =? 0); [discriminate|].
    set (e0 := (x, j, g, g')).
    destruct (i mod updateInterval =? 0).
    - set (v := f x') in *.
      destruct (nisnan v || nisinf v || nlt (nabs (nsub last v)) tolerance) eqn:Ht.
      + injection H as <-. exists [Gr x j g g'; St x'; Ev x' v]. cbn. rewrite <- !app_assoc. cbn.
        split; [reflexivity|]. split; [reflexivity|]. split; [reflexivity|].
        split; [constructor; [reflexivity|constructor]|]. split; [split; [reflexivity|split; [exact Hmv|reflexivity]]|]. split; [reflexivity|].
        split; [intros [|k] e K; [|destruct k; discriminate K]; injection K as <-; rewrite Nat.add_0_r; split; [exact Hp|reflexivity]|].
        split; [lia|]. split; [right; right; right; exists [], (x', v); split; [reflexivity|exact Ht]|]. split; [discriminate|].
        intros [|a [|b [|c [|d b1]]]] e b2 K; try discriminate K; injection K; intros; subst; reflexivity.
      + apply IH in H; [|lia]. destruct H as (body & H1 & H2 & H3 & H4 & H5 & H6 & H7 & H8 & H9 & H10 & H11).
        exists (Gr x j g g' :: St x' :: Ev x' v :: body).
        change (grads (Gr x j g g' :: St x' :: Ev x' v :: body)) with (e0 :: grads body).
        change (steps_to (Gr x j g g' :: St x' :: Ev x' v :: body)) with (x' :: steps_to body).
        change (evals (Gr x j g g' :: St x' :: Ev x' v :: body)) with ((x', v) :: evals body).
        split. { rewrite H1. cbn. rewrite <- !app_assoc. reflexivity. }
        split. { exact H2. }
        split. { exact H3. }
        split. { constructor; [reflexivity|exact H4]. }
        split. { cbn. split; [reflexivity|]. split; [exact Hmv|exact H5]. }
        split. { rewrite H6. clear. destruct (steps_to body) as [|w l]; [reflexivity|].
                 change (List.last (x' :: w :: l) x) with (List.last (w :: l) x). revert w; induction l as [|a l IHl]; intros w; [reflexivity|]. cbn in *. apply IHl. }
        split. { intros [|k] e K; [injection K as <-; rewrite Nat.add_0_r; auto|]. cbn in K. apply H7 in K. rewrite Nat.add_succ_r. exact K. }
        split. { cbn [length]. lia. }
        split. { destruct H9 as [E|[E|[(b1 & e & b2 & E1 & E2 & E3)|(ps & p & E1 & E2)]]].
                 - left. cbn [length]. lia.
                 - right. right. left. apply orb_true_iff in E as [E|E].
                   + exists [Gr x j g g'], (St x'), (Ev x' v :: body). auto.
                   + exists [Gr x j g g'; St x'], (Ev x' v), body. auto.
                 - right. right. left. exists (Gr x j g g' :: St x' :: Ev x' v :: b1), e, b2. rewrite E1. cbn. rewrite <- !app_assoc. auto.
                 - right. right. right. exists ((x', v) :: ps), p. rewrite E1. split; [reflexivity|]. rewrite <- E2. f_equal.
                   clear. cbn [map snd]. destruct (map snd ps) as [|w l]; [reflexivity|].
                   change (List.last (v :: w :: l) last) with (List.last (w :: l) last). revert w; induction l as [|a l IHl]; intros w; [reflexivity|]. cbn in *. symmetry. symmetry in IHl. auto. }
        split; [discriminate|].
        intros b1 e b2 K Ka Ks. destruct b1 as [|a [|a' [|a'' b1]]]; cbn [app] in K.
        * injection K as <- <-. cbn in Ks. congruence.
        * injection K as <- <- <-. cbn in Ks. rewrite Ks in H10. cbn. apply (H10 eq_refl).
        * injection K as <- <- <- <-. cbn in Ks. rewrite Ks in H10. rewrite orb_true_r in H10. apply (H10 eq_refl).
        * injection K as <- <- <- K. apply (H11 b1 e b2); auto. cbn in Ks. rewrite <- !app_assoc in Ks. exact Ks.
    - apply IH in H; [|lia]. destruct H as (body & H1 & H2 & H3 & H4 & H5 & H6 & H7 & H8 & H9 & H10 & H11).
      exists (Gr x j g g' :: St x' :: body).
      change (grads (Gr x j g g' :: St x' :: body)) with (e0 :: grads body).
      change (steps_to (Gr x j g g' :: St x' :: body)) with (x' :: steps_to body).
      change (evals (Gr x j g g' :: St x' :: body)) with (evals body).
      split. { rewrite H1. cbn. rewrite <- !app_assoc. reflexivity. }
      split. { exact H2. }
      split. { exact H3. }
      split. { exact H4. }
      split. { cbn. split; [reflexivity|]. split; [exact Hmv|exact H5]. }
      split. { rewrite H6. clear. destruct (steps_to body) as [|w l]; [reflexivity|].
               change (List.last (x' :: w :: l) x) with (List.last (w :: l) x). revert w; induction l as [|a l IHl]; intros w; [reflexivity|]. cbn in *. apply IHl. }
      split. { intros [|k] e K; [injection K as <-; rewrite Nat.add_0_r; auto|]. cbn in K. apply H7 in K. rewrite Nat.add_succ_r. exact K. }
      split. { cbn [length]. lia. }
      split. { destruct H9 as [E|[E|[(b1 & e & b2 & E1 & E2 & E3)|K]]].
               - left. cbn [length]. lia.
               - right. right. left. exists [Gr x j g g'], (St x'), body. auto.
               - right. right. left. exists (Gr x j g g' :: St x' :: b1), e, b2. rewrite E1. cbn. rewrite <- !app_assoc. auto.
               - right. right. right. exact K. }
      split; [discriminate|].
      intros b1 e b2 K Ka Ks. destruct b1 as [|a [|a' b1]]; cbn [app] in K.
      + injection K as <- <-. cbn in Ks. congruence.
      + injection K as <- <- <-. cbn in Ks. apply (H10 Ks).
      + injection K as <- <- K. apply (H11 b1 e b2); auto. cbn in Ks. rewrite <- !app_assoc in Ks. exact Ks.
  Qed.

  Lemma cd_ok fuel x r : cd stepSize maxIterations tolerance updateInterval f pg policy cb fuel x = Ret r ->
    let es := grads (o_tr r) in
    bracketed x (o_x r) (o_tr r) /\
    o_val r = f (o_x r) /\
    walk stepSize x es (steps_to (o_tr r)) /\
    o_x r = List.last (steps_to (o_tr r)) x /\
    (forall k e, nth_error es k = Some e -> policy (S k) (p_at e) = Some (p_feat e) /\ p_grad e = pg (p_at e) (p_feat e)) /\
    length es <= B - 1 /\
    Forall (fun p => snd p = f (fst p)) (evals (o_tr r)) /\
    (length es = B - 1 \/ asked cb (o_tr r) \/
     (exists ps p, evals (o_tr r) = ps ++ [p] /\ stop_test tolerance (List.last (map snd ps) nmax) (snd p) = true)) /\
    (forall h e rest, asked_at cb (o_tr r) h e rest -> grads rest = []).
  Proof.
    intros H. unfold cd in H. apply cd_loop_spec in H; [|apply bound_pos].
    destruct H as (body & H1 & H2 & H3 & H4 & H5 & H6 & H7 & H8 & H9 & _ & H11).
    cbn [rev app] in H1.
    assert (E1 : grads (o_tr r) = grads body) by (rewrite H1; unfold grads; cbn; rewrite flat_map_app; cbn; apply app_nil_r).
    assert (E2 : steps_to (o_tr r) = steps_to body) by (rewrite H1; unfold steps_to; cbn; rewrite flat_map_app; cbn; apply app_nil_r).
    assert (E3 : evals (o_tr r) = evals body) by (rewrite H1; unfold evals; cbn; rewrite flat_map_app; cbn; apply app_nil_r).
    cbn zeta. rewrite E1, E2, E3.
    split. { exists body. split; [exact H1|exact H2]. }
    split; [exact H3|]. split; [exact H5|]. split; [exact H6|]. split; [intros k e K; apply (H7 k e K)|]. split; [lia|]. split; [exact H4|]. split.
    - destruct H9 as [E|[E|[(b1 & e & b2 & Eb & Ea & Es)|K]]]; [left; lia|discriminate| |right; right; exact K].
      right. left. exists (rev b1 ++ [Begin x]), e, (b2 ++ [End (o_x r)]). split; [|split; [exact Ea|exact Es]].
      rewrite H1, Eb, rev_app_distr, rev_involutive. cbn. rewrite <- app_assoc. reflexivity.
    - intros h e rest (Ht & Ha & Hs). rewrite H1 in Ht.
      destruct (rev h) as [|z rh] eqn:Eh.
      { cbn in Ht. injection Ht as <- _. discriminate Ha. }
      cbn in Ht. injection Ht as <- Ht.
      assert (Hh : h = rev rh ++ [Begin x]) by (rewrite <- (rev_involutive h), Eh; reflexivity).
      apply split_snoc in Ht as [(b2' & -> & Eb)|(-> & -> & Eb)].
      + unfold grads. rewrite flat_map_app. cbn. rewrite app_nil_r. apply (H11 rh e b2' Eb Ha). rewrite Hh in Hs. exact Hs.
      + discriminate Ha.
  Qed.

  (** policies *)
  Lemma cyclic_ok nf i : 0 < nf -> exists j, cyclic_descent nf i = Some j /\ j < nf /\ Nat.modulo i nf = j.
  Proof.
    intros H. unfold cyclic_descent. destruct (Nat.eqb_spec nf 0); [lia|]. eexists. split; [reflexivity|].
    split; [apply Nat.mod_upper_bound; lia|reflexivity].
  Qed.
  (* nf consecutive iterations visit every feature once *)
  Lemma cyclic_round nf i : 0 < nf -> forall j, j < nf ->
    exists! k, k < nf /\ cyclic_descent nf (i + k) = Some j.
  Proof.
    intros H j Hj. unfold cyclic_descent. destruct (Nat.eqb_spec nf 0); [lia|].
    exists ((j + (nf - i mod nf)) mod nf). split.
    - split; [apply Nat.mod_upper_bound; lia|]. f_equal.
      rewrite Nat.add_mod_idemp_r by lia.
      replace (i + (j + (nf - i mod nf))) with (j + (i / nf + 1) * nf).
      2:{ pose proof (Nat.div_mod i nf ltac:(lia)) as D. pose proof (Nat.mod_upper_bound i nf ltac:(lia)). nia. }
      rewrite Nat.mod_add by lia. apply Nat.mod_small; exact Hj.
    - intros k [Hk E]. injection E as E.
      pose proof (Nat.div_mod (i + k) nf ltac:(lia)) as D1. rewrite E in D1.
      pose proof (Nat.div_mod i nf ltac:(lia)) as D2. pose proof (Nat.mod_upper_bound i nf ltac:(lia)) as U.
      set (q1 := (i + k) / nf) in *. set (q2 := i / nf) in *. set (m := i mod nf) in *.
      assert (k + m = j + (q1 - q2) * nf \/ k + m + (q2 - q1) * nf = j) as C by nia.
      assert (q2 <= q1) by nia.
      assert (k + m = j + (q1 - q2) * nf) as C' by nia. clear C.
      assert (q1 - q2 < 2) as Hd.
      { apply Nat.nle_gt; intros K. assert (2 * nf <= (q1 - q2) * nf) by (apply Nat.mul_le_mono_r; exact K). lia. }
      destruct (q1 - q2) as [|[|d]]; [| |lia].
      + replace (j + (nf - m)) with (k + 1 * nf) by lia. rewrite Nat.mod_add by lia. apply Nat.mod_small; exact Hk.
      + replace (j + (nf - m)) with k by lia. apply Nat.mod_small; exact Hk.
  Qed.

  Hypothesis L : OrdLaws N.
  Lemma greedy_scan_ok x : forall k i best bd,
    (greedy_scan pg x k i best bd = best /\ (forall m, i <= m < i + k -> nlt bd (accu (pg x m)) = false)) \/
    (let r := greedy_scan pg x k i best bd in
     i <= r < i + k /\ nlt bd (accu (pg x r)) = true /\
     (forall m, i <= m < i + k -> nlt (accu (pg x r)) (accu (pg x m)) = false) /\
     (forall m, i <= m < r -> nle (accu (pg x r)) (accu (pg x m)) = false)).
  Proof using L.
    induction k as [|k IH]; intros i best bd; cbn [greedy_scan].
    - left. split; [reflexivity|]. intros m Hm. lia.
    - destruct (nlt bd (accu (pg x i))) eqn:Hd.
      + right. destruct (IH (S i) i (accu (pg x i))) as [[E H]|(A & C & D & F)].
        * cbn zeta. rewrite E. split; [lia|]. split; [exact Hd|]. split.
          -- intros m Hm. destruct (Nat.eq_dec m i) as [->|]; [apply (ol_irrefl N L)|apply H; lia].
          -- intros m Hm. lia.
        * cbn zeta. split; [lia|]. split; [eapply (ol_trans N L); eassumption|]. split.
          -- intros m Hm. destruct (Nat.eq_dec m i) as [->|]; [|apply D; lia].
             apply (ol_le_not_lt N L). apply (ol_lt_le N L). exact C.
          -- intros m Hm. destruct (Nat.eq_dec m i) as [->|]; [|apply F; lia].
             destruct (nle _ (accu (pg x i))) eqn:K; [|reflexivity].
             pose proof (ol_le_lt N L _ _ _ K C) as K2. rewrite (ol_irrefl N L) in K2. discriminate.
      + destruct (IH (S i) best bd) as [[E H]|(A & C & D & F)].
        * left. split; [exact E|]. intros m Hm. destruct (Nat.eq_dec m i) as [->|]; [exact Hd|apply H; lia].
        * right. cbn zeta. split; [lia|]. split; [exact C|]. split.
          -- intros m Hm. destruct (Nat.eq_dec m i) as [->|]; [|apply D; lia].
             destruct (nlt (accu (pg x (greedy_scan pg x k (S i) best bd))) (accu (pg x i))) eqn:K; [|reflexivity].
             rewrite (ol_trans N L _ _ _ C K) in Hd. discriminate.
          -- intros m Hm. destruct (Nat.eq_dec m i) as [->|]; [|apply F; lia].
             destruct (nle _ (accu (pg x i))) eqn:K; [|reflexivity].
             rewrite (ol_lt_le_trans N L _ _ _ C K) in Hd. discriminate.
  Qed.
End CD.
