(** SGD in changed coordinates does what it did in the old ones. *)
From Coq Require Import List Arith Bool Reals Lra Lia.
From Verif.Base Require Import Num Instances Loop.
From Verif.Model Require Import Sgd Updates.
From Verif.Spec Require Import InvarianceSpec.
Import ListNotations.
Local Open Scope R_scope.

Lemma back_move sg c x : (forall i, sg i * sg i = 1) -> back sg c (move sg c x) = x.
Proof.
  unfold back, move. revert sg c. induction x as [|a x IH]; intros sg c H; [reflexivity|]. cbn [mapi]. f_equal.
  - replace (sg 0%nat * (sg 0%nat * a + c 0%nat - c 0%nat)) with (sg 0%nat * sg 0%nat * a) by ring. rewrite H. ring.
  - apply (IH (fun i => sg (S i)) (fun i => c (S i))). intros. apply H.
Qed.

Section Sgd.
  Variables (mx : R) (S : Type) (up up' : S -> R -> R -> R -> S * R) (s0 : S) (h k : R) (ok : R -> Prop) (eta : R -> R).
  Hypothesis (HK : 0 < k) (Hok : ok h) (Hf : follows up up' s0 ok eta k).
  Notation RN := (RNum mx).
  Notation vec := (list R).

  (** each coordinate has the same history on both sides *)
  Inductive inv : (nat -> R) -> (nat -> R) -> list S -> vec -> list S -> vec -> Prop :=
  | inv_nil sg c : inv sg c [] [] [] []
  | inv_cons sg c (x0 : R) (l : list (R * R)) s x s' x' ss xs ss' xs' : Forall (fun hg => ok (fst hg)) l ->
      run (N := RN) up s0 x0 l = (s, x) ->
      run (N := RN) up' s0 (sg 0%nat * x0 + c 0%nat) (map (fun hg => (eta (fst hg), sg 0%nat * k * snd hg)) l) = (s', x') ->
      inv (fun i => sg (Datatypes.S i)) (fun i => c (Datatypes.S i)) ss xs ss' xs' ->
      inv sg c (s :: ss) (x :: xs) (s' :: ss') (x' :: xs').

  Lemma inv_init sg c x : inv sg c (map (fun _ => s0) x) x (map (fun _ => s0) x) (move sg c x).
  Proof.
    revert sg c. induction x as [|a x IH]; intros sg c; cbn [map]; [constructor|].
    exact (inv_cons sg c a [] _ _ _ _ _ _ _ _ (Forall_nil _) eq_refl eq_refl (IH (fun i => sg (Datatypes.S i)) (fun i => c (Datatypes.S i)))).
  Qed.
  Lemma inv_move sg c ss xs ss' xs' : (forall i, sg i * sg i = 1) -> inv sg c ss xs ss' xs' -> xs' = move sg c xs.
  Proof.
    intros H I. induction I as [|sg c x0 l s x s' x' ss xs ss' xs' F E E' I IH]; [reflexivity|]. unfold move. cbn [mapi]. f_equal.
    - pose proof (Hf mx (sg 0%nat) (c 0%nat) x0 l (H 0%nat) F) as G. rewrite E, E' in G. exact G.
    - apply IH. intros. apply H.
  Qed.
  Lemma run_snoc (u : S -> R -> R -> R -> S * R) x0 l (b a : R) :
    run (N := RN) u s0 x0 (l ++ [(b, a)]) = u (fst (run (N := RN) u s0 x0 l)) (snd (run (N := RN) u s0 x0 l)) b a.
  Proof. unfold run. rewrite fold_left_app. reflexivity. Qed.
  Lemma inv_step sg c ss xs ss' xs' : inv sg c ss xs ss' xs' -> forall g,
    inv sg c (fst (vec_up (N := RN) up ss xs h g)) (snd (vec_up (N := RN) up ss xs h g))
      (fst (vec_up (N := RN) up' ss' xs' (eta h) (turn sg k g))) (snd (vec_up (N := RN) up' ss' xs' (eta h) (turn sg k g))).
  Proof.
    intros I. induction I as [|sg c x0 l s x s' x' ss xs ss' xs' F E E' I IH]; intros g; [destruct g; constructor|].
    destruct g as [|a g]; [constructor|]. unfold turn. cbn [vec_up mapi].
    change (mapi (fun i a => sg (Datatypes.S i) * k * a) g) with (turn (fun i => sg (Datatypes.S i)) k g).
    specialize (IH g).
    assert (F' : Forall (fun hg : R * R => ok (fst hg)) (l ++ [(h, a)])) by (apply Forall_app; split; [exact F|constructor; [exact Hok|constructor]]).
    destruct (up s x h a) as [s1 x1] eqn:U. destruct (up' s' x' (eta h) (sg 0%nat * k * a)) as [s1' x1'] eqn:U'.
    destruct (vec_up (N := RN) up ss xs h g) as [ss1 xs1]. destruct (vec_up (N := RN) up' ss' xs' (eta h) (turn (fun i => sg (Datatypes.S i)) k g)) as [ss1' xs1'].
    cbn [fst snd] in *. apply (inv_cons sg c x0 (l ++ [(h, a)])); [exact F'| | |exact IH].
    - rewrite run_snoc, E. exact U.
    - rewrite map_app. cbn [map fst snd]. rewrite run_snoc, E'. exact U'.
  Qed.

  Variables (sg c : nat -> R) (batch max : nat) (tol : R) (shuffle exact : bool).
  Variables (f : SepFun RN vec vec) (cb cb' : Callbacks RN vec vec).
  Hypothesis (Hsg : forall i, sg i * sg i = 1) (Htol : k = 1 \/ tol <= 0) (Hcb : moved_callbacks sg c k cb cb').
  Notation C := (sgd_cfg (mx := mx) batch max tol shuffle exact up).
  Notation C' := (sgd_cfg (mx := mx) batch max (k * tol) shuffle exact up').
  Notation F' := (moved_function sg c k f).
  Notation E := (moved_event (mx := mx) sg c k).

  Record related (s s' : st RN vec vec (list S) unit) : Prop := {
    rl_i : s_i s' = s_i s; rl_cf : s_cf s' = s_cf s; rl_ep : s_epoch s' = s_epoch s;
    rl_ov : (s_overall s' : R) = k * s_overall s; rl_last : k = 1 -> s_last s' = s_last s;
    rl_term : s_term s' = s_term s; rl_inv : inv sg c (s_u s) (s_x s) (s_u s') (s_x s');
    rl_step : (s_step s : R) = h; rl_step' : (s_step s' : R) = eta h; rl_shuf : s_shuf s' = s_shuf s;
    rl_tr : s_tr s' = map E (s_tr s) }.
  Lemma rl_x s s' : related s s' -> s_x s' = move sg c (s_x s).
  Proof. intros H. eapply inv_move; [exact Hsg|apply (rl_inv _ _ H)]. Qed.
  Definition related_exit (e e' : exit (N := RN) (X := vec) (G := vec) (U := list S) (D := unit)) : Prop :=
    match e, e' with Xloop s, Xloop s' => related s s' | Xret s, Xret s' => related s s' | Xub, Xub => True | _, _ => False end.
  Definition related_sum (a a' : st RN vec vec (list S) unit + exit) : Prop :=
    match a, a' with inl s, inl s' => related s s' | inr e, inr e' => related_exit e e' | _, _ => False end.

  Lemma tol_test (a b a' b' : R) : (k = 1 -> a' = a) -> b' = k * b -> Rltb (Rabs (a' - b')) (k * tol) = Rltb (Rabs (a - b)) tol.
  Proof.
    intros A B. destruct Htol as [K|K].
    - rewrite (A K), B, K, !Rmult_1_l. reflexivity.
    - destruct (Rltb_spec (Rabs (a' - b')) (k * tol)) as [L|L], (Rltb_spec (Rabs (a - b)) tol) as [L'|L']; try reflexivity; exfalso.
      + pose proof (Rabs_pos (a' - b')). nra.
      + pose proof (Rabs_pos (a - b)). lra.
  Qed.

  Lemma epoch_end_sim s s' : related s s' -> related_sum (epoch_end C f cb s) (epoch_end C' F' cb' s').
  Proof.
    intros H. pose proof (rl_x _ _ H) as X. destruct H as [Hi Hcf Hep Hov Hl Ht Hinv Hs Hs' Hsh Htr]. destruct Hcb as [Cs Cg].
    unfold epoch_end. cbv zeta.
    assert (T1 : (EndEpoch (N := RN) (s_x s') (s_epoch s') (ndiv (s_overall s') (nofnat (sf_num F'))) :: s_tr s')
                 = map E (EndEpoch (s_x s) (s_epoch s) (ndiv (s_overall s) (nofnat (sf_num f))) :: s_tr s)).
    { cbn [map moved_event]. rewrite X, Hep, Htr. f_equal. f_equal.
      change (Rdiv (s_overall s') (nofnat (N := RN) (sf_num f)) = k * Rdiv (s_overall s) (nofnat (N := RN) (sf_num f))).
      unfold Rdiv. etransitivity; [apply f_equal2; [exact Hov|reflexivity]|]. apply Rmult_assoc. }
    set (t1 := EndEpoch (N := RN) (s_x s) _ _ :: s_tr s) in *.
    rewrite T1.
    assert (A1 : ask cb' (s_term s') (map E t1) = ask cb (s_term s) t1) by (unfold ask; now rewrite Cs, Ht).
    rewrite A1. cbn [nisnan nisinf RNum orb].
    replace (nlt (nabs (nsub (s_last s') (s_overall s'))) (c_tol C')) with (nlt (nabs (nsub (s_last s) (s_overall s))) (c_tol C)).
    2: { symmetry. apply (tol_test (s_last s) (s_overall s) (s_last s') (s_overall s')); assumption. }
    destruct (nlt (nabs (nsub (s_last s) (s_overall s))) (c_tol C)).
    - cbn [related_sum related_exit]. constructor; cbn [s_i s_cf s_epoch s_overall s_last s_term s_x s_u s_d s_step s_shuf s_tr]; try assumption; congruence || reflexivity.
    - assert (T2 : BeginEpoch (N := RN) (s_x s') (Datatypes.S (s_epoch s')) (s_overall s') :: map E t1 = map E (BeginEpoch (s_x s) (Datatypes.S (s_epoch s)) (s_overall s) :: t1)).
      { cbn [map moved_event]. rewrite X, Hep. f_equal. f_equal. exact Hov. }
      rewrite T2. set (t2 := BeginEpoch (N := RN) (s_x s) _ _ :: t1) in *.
      assert (A2 : ask cb' (ask cb (s_term s) t1) (map E t2) = ask cb (ask cb (s_term s) t1) t2) by (unfold ask; now rewrite Cs).
      cbn [related_sum]. change (actual_max C') with (actual_max C). rewrite Hi. 
      constructor; cbn [s_i s_cf s_epoch s_overall s_last s_term s_x s_u s_d s_step s_shuf s_tr sgd_cfg c_shuffle];
        try assumption; try congruence; try reflexivity.
      + destruct (negb _); [reflexivity|exact Hcf].
      + destruct (negb _); [cbn; lra|exact Hov].
      + intros K. destruct (negb _); [change (s_overall s' = s_overall s); etransitivity; [exact Hov|]; rewrite K; apply Rmult_1_l|exact (Hl K)].
      + destruct shuffle; congruence.
      + destruct shuffle; reflexivity.
  Qed.

  Lemma body_sim s s' : related s s' -> related_sum (body C f cb s) (body C' F' cb' s').
  Proof.
    intros H. pose proof (rl_x _ _ H) as X. pose proof H as R0. destruct H as [Hi Hcf Hep Hov Hl Ht Hinv Hs Hs' Hsh Htr]. pose proof Hcb as [Cs Cg].
    unfold body. change (actual_max C') with (actual_max C). rewrite Hi, Ht.
    destruct (negb ((s_i s <? actual_max C) && negb (s_term s))) eqn:EN; [exact R0|].
    assert (EB : effective_batch C' F' s' = effective_batch C f s).
    { unfold effective_batch. change (actual_max C') with (actual_max C). cbn [sgd_cfg c_batch moved_function sf_num]. now rewrite Hi, Hcf. }
    rewrite EB. set (b := effective_batch C f s).
    assert (EG : sf_evalgrad F' (s_shuf s') (s_x s') (s_cf s') b
                 = (k * fst (sf_evalgrad f (s_shuf s) (s_x s) (s_cf s) b), turn sg k (snd (sf_evalgrad f (s_shuf s) (s_x s) (s_cf s) b)))).
    { cbn [moved_function sf_evalgrad]. rewrite Hsh, X, Hcf, back_move by exact Hsg. reflexivity. }
    rewrite EG. destruct (sf_evalgrad f (s_shuf s) (s_x s) (s_cf s) b) as [obj g]. cbn [fst snd].
    assert (T1 : EvalGrad (N := RN) (s_x s') (s_cf s') b (k * obj) (turn sg k g) :: s_tr s' = map E (EvalGrad (s_x s) (s_cf s) b obj g :: s_tr s)).
    { cbn [map moved_event]. rewrite X, Hcf, Htr. reflexivity. }
    rewrite T1. set (t1 := EvalGrad (N := RN) (s_x s) _ _ _ _ :: s_tr s) in *.
    rewrite Cg. set (g1 := cb_grad cb t1 g).
    assert (A1 : ask cb' (s_term s) (map E t1) = ask cb (s_term s) t1) by (unfold ask; now rewrite Cs).
    rewrite A1. cbn [sgd_cfg c_up c_dp].
    pose proof (inv_step _ _ _ _ _ _ Hinv g1) as I1. rewrite Hs, Hs'.
    pose proof (inv_move _ _ _ _ _ _ Hsg I1) as X1.
    destruct (vec_up (N := RN) up (s_u s) (s_x s) h g1) as [u1 x1]. destruct (vec_up (N := RN) up' (s_u s') (s_x s') (eta h) (turn sg k g1)) as [u1' x1'].
    cbn [fst snd] in I1, X1.
    assert (T2 : Step (N := RN) x1' :: map E t1 = map E (Step x1 :: t1)) by (cbn [map moved_event]; now rewrite X1).
    assert (A2 : ask cb' (ask cb (s_term s) t1) (Step x1' :: map E t1) = ask cb (ask cb (s_term s) t1) (Step x1 :: t1)) by (rewrite T2; unfold ask; now rewrite Cs).
    match goal with |- related_sum (if _ then _ else if _ then _ ?s1 else _) (if _ then _ else if _ then _ ?s1' else _) => assert (R1 : related s1 s1') end.
    { constructor; cbn [s_i s_cf s_epoch s_overall s_last s_term s_x s_u s_d s_step s_shuf s_tr]; try assumption; try reflexivity; try congruence.
      change ((s_overall s' : R) + k * obj = k * (s_overall s + obj)). rewrite Hov. ring. }
    change (sf_num F') with (sf_num f). destruct (sf_num f =? 0)%nat; [exact Logic.I|].
    cbn [s_cf]. rewrite Hcf. destruct (((s_cf s + b) mod sf_num f) =? 0)%nat.
    - rewrite Hcf in R1. apply epoch_end_sim. exact R1.
    - rewrite Hcf in R1. exact R1.
  Qed.
  Lemma loop_sim fuel : forall s s', related s s' -> related_sum (loop (body C f cb) fuel s) (loop (body C' F' cb') fuel s').
  Proof.
    induction fuel as [|n IH]; intros s s' H; cbn [loop]; [exact H|]. pose proof (body_sim s s' H) as B.
    destruct (body C f cb s) as [t|e], (body C' F' cb' s') as [t'|e']; cbn [related_sum] in B; try contradiction; [now apply IH|exact B].
  Qed.
  Lemma exact_sim fuel : forall shuf x i (acc acc' : R) tr, acc' = k * acc ->
    match exact_loop C f fuel shuf x i acc tr, exact_loop C' F' fuel shuf (move sg c x) i acc' (map E tr) with
    | Some (v, t), Some (v', t') => (v' : R) = k * v /\ t' = map E t
    | None, None => True
    | _, _ => False
    end.
  Proof.
    induction fuel as [|n IH]; intros shuf x i acc acc' tr HA; cbn [exact_loop]; change (sf_num F') with (sf_num f); change (c_batch C') with batch; change (c_batch C) with batch.
    - destruct (i <? sf_num f)%nat; [exact Logic.I|split; [exact HA|reflexivity]].
    - destruct (i <? sf_num f)%nat; [|split; [exact HA|reflexivity]].
      cbn [moved_function sf_eval]. rewrite (back_move sg c x Hsg).
      apply (IH shuf x (i + batch)%nat (acc + sf_eval f shuf x i (Nat.min batch (sf_num f - i))) (acc' + k * sf_eval f shuf x i (Nat.min batch (sf_num f - i)))
             (Eval x i (Nat.min batch (sf_num f - i)) (sf_eval f shuf x i (Nat.min batch (sf_num f - i))) :: tr)).
      rewrite HA. ring.
  Qed.

  Theorem sgd_moved fuel x :
    moved_outcome sg c k (optimize_with C f cb fuel (map (fun _ => s0) x) tt h x)
      (optimize_with C' F' cb' fuel (map (fun _ => s0) x) tt (eta h) (move sg c x)).
  Proof.
    unfold optimize_with.
    assert (R0 : related (init cb x (map (fun _ => s0) x) tt h) (init cb' (move sg c x) (map (fun _ => s0) x) tt (eta h))).
    { unfold init. pose proof Hcb as [Cs Cg].
      assert (T0 : [BeginEpoch (N := RN) (move sg c x) 1 n0; BeginOpt (move sg c x)] = map E [BeginEpoch x 1 n0; BeginOpt x]).
      { cbn [map moved_event]. f_equal. f_equal. cbn. symmetry; apply Rmult_0_r. }
      rewrite T0. constructor; cbn [s_i s_cf s_epoch s_overall s_last s_term s_x s_u s_d s_step s_shuf s_tr]; try reflexivity.
      - cbn. symmetry; apply Rmult_0_r.
      - apply Cs.
      - apply inv_init. }
    pose proof (loop_sim fuel _ _ R0) as L.
    destruct (loop (body C f cb) fuel _) as [t|[t|t|]], (loop (body C' F' cb') fuel _) as [t'|[t'|t'|]]; cbn [related_sum related_exit] in L; try contradiction; cbn [moved_outcome]; try exact Logic.I.
    - change (c_exact C') with exact. change (c_exact C) with exact. pose proof (rl_x _ _ L) as X. destruct exact.
      + rewrite X, (rl_shuf _ _ L), (rl_tr _ _ L).
        assert (G : forall a a' : option (R * list (event RN vec vec)),
          match a, a' with Some (v, t), Some (v', t') => (v' : R) = k * v /\ t' = map E t | None, None => True | _, _ => False end ->
          moved_outcome sg c k (match a with None => Diverge | Some (v, tr) => Return (finish t (v : T RN) tr) end)
            (match a' with None => Diverge | Some (v, tr) => Return (finish t' (v : T RN) tr) end)).
        { intros [[v tr]|] [[v' tr']|] H; try contradiction; cbn [moved_outcome]; [|exact Logic.I].
          destruct H as [H1 H2]. unfold finish; cbn [r_val r_x r_trace]. split; [exact H1|]. split; [exact X|]. rewrite X, H2. rewrite map_rev. reflexivity. }
        apply G. apply (exact_sim fuel (s_shuf t) (s_x t) 0 0 0 (s_tr t)). ring.
      + unfold finish; cbn [moved_outcome r_val r_x r_trace]. split; [apply (rl_ov _ _ L)|]. split; [exact X|]. rewrite X, (rl_tr _ _ L), map_rev. reflexivity.
    - pose proof (rl_x _ _ L) as X. unfold finish; cbn [moved_outcome r_val r_x r_trace]. split; [apply (rl_ov _ _ L)|]. split; [exact X|]. rewrite X, (rl_tr _ _ L), map_rev. reflexivity.
  Qed.
End Sgd.
