(** Proofs for C60: maxIterations = 0 acts like any limit that is out of reach. *)
From Coq Require Import List Arith Bool Lia ZArith.
From Verif.Base Require Import Num Vec Size Loop.
From Verif.Model Require Import Common Sgd Eve.
From Verif.Spec Require Import NoLimitSpec.
Import ListNotations.

Section Agree.
  Context {S A : Type}.
  Variables (b1 b2 : S -> S + A) (m : S -> nat) (step K : nat).
  Hypothesis Hb : forall s, m s + step <= K -> b1 s = b2 s.
  Hypothesis Hm : forall s s', m s + step <= K -> b1 s = inl s' -> m s' <= m s + step.
  Lemma loop_agree fuel : forall s, m s + fuel * step <= K -> loop b1 fuel s = loop b2 fuel s.
  Proof.
    induction fuel as [|k IH]; intros s H; cbn [loop]; [reflexivity|]. cbn [Nat.mul] in H.
    rewrite <- Hb by lia. destruct (b1 s) as [s'|r] eqn:E; [|reflexivity]. apply IH. pose proof (Hm s s' ltac:(lia) E). lia.
  Qed.
End Agree.

(** ---- SGD ---- *)
Section SgdNL.
  Context {N : Num} {X G U D : Type}.
  Variables (c : Cfg N X G U D) (f : SepFun N X G) (cb : Callbacks N X G).
  Lemma ltb_t i l : i < l -> (i <? l) = true. Proof. apply Nat.ltb_lt. Qed.
  Lemma eqb_f i l : i < l -> (i =? l) = false. Proof. intro H. apply Nat.eqb_neq. lia. Qed.
  (* the body with the limit replaced *)
  Lemma epoch_end_agree (c1 c2 : Cfg N X G U D) s : c_tol c1 = c_tol c2 -> c_shuffle c1 = c_shuffle c2 -> s_i s < actual_max c1 -> s_i s < actual_max c2 ->
    epoch_end c1 f cb s = epoch_end c2 f cb s.
  Proof. intros E1 E2 H1 H2. unfold epoch_end. rewrite E1, E2, (eqb_f _ _ H1), (eqb_f _ _ H2). reflexivity. Qed.
  Lemma min_out b i l r : i + b <= l -> Nat.min (Nat.min b (l - i)) r = Nat.min b r.
  Proof. intro H. rewrite (Nat.min_l b (l - i)) by lia. reflexivity. Qed.
  Lemma sgd_body_agree M s K : K < actual_max (with_max M c) -> K < size_max -> s_i s + c_batch c <= K ->
    body (with_max M c) f cb s = body (with_max 0 c) f cb s.
  Proof.
    intros H1 H2 H. unfold body.
    assert (A0 : actual_max (with_max 0 c) = size_max) by reflexivity.
    rewrite (ltb_t (s_i s) (actual_max (with_max M c))) by lia. rewrite (ltb_t (s_i s) (actual_max (with_max 0 c))) by (rewrite A0; lia).
    assert (E : forall L, K < actual_max (with_max L c) -> effective_batch (with_max L c) f s = Nat.min (c_batch c) (sf_num f - s_cf s)).
    { intros L HL. unfold effective_batch. apply min_out. cbn [with_max c_batch]. lia. }
    rewrite (E M H1), (E 0) by (rewrite A0; exact H2).
    destruct (negb (true && negb (s_term s))); [reflexivity|]. cbn [with_max c_up c_dp].
    destruct (sf_evalgrad f (s_shuf s) (s_x s) (s_cf s) _) as [obj g].
    destruct (c_up c _ _ _ _) as [u' x']. destruct (c_dp c _ _ _ _) as [d' st'].
    destruct (sf_num f =? 0); [reflexivity|]. cbn [s_cf].
    destruct (_ =? 0); [|reflexivity]. apply epoch_end_agree; try reflexivity; cbn [s_i]; rewrite ?A0; lia.
  Qed.
  Lemma sgd_body_i (c' : Cfg N X G U D) s s' : body c' f cb s = inl s' -> s_i s' <= s_i s + c_batch c'.
  Proof.
    unfold body. destruct (negb _); [discriminate|]. destruct (sf_evalgrad _ _ _ _ _) as [obj g].
    destruct (c_up c' _ _ _ _) as [u' x']. destruct (c_dp c' _ _ _ _) as [d' st'].
    destruct (sf_num f =? 0); [discriminate|]. cbn [s_cf].
    assert (B : effective_batch c' f s <= c_batch c') by (unfold effective_batch; lia).
    destruct (_ =? 0).
    - unfold epoch_end. cbn [s_i s_overall s_last s_x s_epoch s_tr s_term]. destruct (_ || _); [discriminate|]. destruct (nlt _ _); [discriminate|].
      intro E; injection E as <-. cbn [s_i]. lia.
    - intro E; injection E as <-. cbn [s_i]. lia.
  Qed.
  Lemma sgd_no_limit fuel M u d step x : fuel * c_batch c < M -> fuel * c_batch c < size_max ->
    optimize_with (with_max 0 c) f cb fuel u d step x = optimize_with (with_max M c) f cb fuel u d step x.
  Proof.
    intros H1 H2. unfold optimize_with.
    assert (HA : actual_max (with_max M c) = M). { unfold actual_max. cbn [with_max c_max]. destruct M; [lia|reflexivity]. }
    replace (loop (body (with_max 0 c) f cb) fuel (init cb x u d step)) with (loop (body (with_max M c) f cb) fuel (init cb x u d step)).
    - intros; destruct (loop _ _ _) as [s|[s|s|]]; reflexivity.
    - apply (loop_agree _ _ s_i (c_batch c) (fuel * c_batch c)).
      + intros s Hs. apply (sgd_body_agree M s (fuel * c_batch c)); [rewrite HA; exact H1|exact H2|exact Hs].
      + intros s s' _ E. exact (sgd_body_i _ _ _ E).
      + cbn [init s_i]. lia.
  Qed.
End SgdNL.

Section EveNL.
  Context {N : Num}.
  Variables (pw : N -> nat -> N) (c : @ecfg N) (f : SepFun N (list N) (list N)) (cb : Callbacks N (list N) (list N)).
  Lemma eve_body_agree M s K : K < e_limit (eve_with_max M c) -> K < size_max -> v_i s + e_batch c <= K ->
    eve_body pw (eve_with_max M c) f cb s = eve_body pw (eve_with_max 0 c) f cb s.
  Proof.
    intros H1 H2 H. unfold eve_body.
    assert (A0 : e_limit (eve_with_max 0 c) = size_max) by reflexivity.
    rewrite (ltb_t (v_i s) (e_limit (eve_with_max M c))) by lia. rewrite (ltb_t (v_i s) (e_limit (eve_with_max 0 c))) by (rewrite A0; lia).
    cbn [eve_with_max e_batch]. rewrite !min_out by (rewrite ?A0; lia).
    destruct (negb (true && negb (v_term s))); [reflexivity|].
    destruct (sf_evalgrad f (v_shuf s) (v_x s) (v_cf s) _) as [obj g].
    destruct (v_term s || _); [reflexivity|]. cbn [e_b1 e_b2 e_b3 e_eps e_clip e_step v_cf].
    destruct (sf_num f =? 0); [reflexivity|]. destruct (_ =? 0); [|reflexivity].
    unfold eve_epoch_end. cbn [v_i]. rewrite (eqb_f _ (e_limit (eve_with_max M c))) by lia. rewrite (eqb_f _ (e_limit (eve_with_max 0 c))) by (rewrite A0; lia). reflexivity.
  Qed.
  Lemma eve_body_i (c' : @ecfg N) s s' : eve_body pw c' f cb s = inl s' -> v_i s' <= v_i s + e_batch c'.
  Proof.
    unfold eve_body. destruct (negb _); [discriminate|].
    set (k := Nat.min _ (sf_num f - _)). assert (B : k <= e_batch c') by (unfold k; lia). clearbody k.
    destruct (sf_evalgrad _ _ _ _ _) as [obj g]. destruct (v_term s || _); [discriminate|]. cbn [v_cf].
    destruct (sf_num f =? 0); [discriminate|]. destruct (_ =? 0).
    - unfold eve_epoch_end. cbn [v_i v_overall v_lastall]. destruct (_ || _); [discriminate|]. destruct (nlt _ _); [discriminate|].
      intro E; injection E as <-. cbn [v_i]. lia.
    - intro E; injection E as <-. cbn [v_i]. lia.
  Qed.
  Lemma eve_no_limit fuel M x : fuel * e_batch c < M -> fuel * e_batch c < size_max ->
    eve_optimize pw (eve_with_max 0 c) f cb fuel x = eve_optimize pw (eve_with_max M c) f cb fuel x.
  Proof.
    intros H1 H2. unfold eve_optimize.
    assert (HA : e_limit (eve_with_max M c) = M). { unfold e_limit. cbn [eve_with_max e_max]. destruct M; [lia|reflexivity]. }
    replace (loop (eve_body pw (eve_with_max 0 c) f cb) fuel (eve_init x)) with (loop (eve_body pw (eve_with_max M c) f cb) fuel (eve_init x)).
    - destruct (loop _ _ _) as [s|[s|s|]]; reflexivity.
    - apply (loop_agree _ _ v_i (e_batch c) (fuel * e_batch c)).
      + intros s Hs. apply (eve_body_agree M s (fuel * e_batch c)); [rewrite HA; exact H1|exact H2|exact Hs].
      + intros s s' _ E. exact (eve_body_i _ _ _ E).
      + cbn [eve_init v_i]. lia.
  Qed.
End EveNL.

