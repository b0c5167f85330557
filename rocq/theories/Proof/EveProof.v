From Coq Require Import List Arith Reals Lra Lia Bool ZArith.
From Verif.Base Require Import Num Instances Vec Loop Size.
From Verif.Model Require Import Sgd Eve.
From Verif.Spec Require Import SgdSpec UpdatesSpec SwatsSpec EveSpec SchedulesSpec.
From Verif.Proof Require Import UpdatesProof AdamProof SwatsProof SnapshotProof.
Import ListNotations.
Local Open Scope R_scope.

(** ** The decay coefficient *)
Lemma changes_snoc : forall eps clip l a b,
  changes eps clip (l ++ [a; b]) = changes eps clip (l ++ [a]) ++ [clip_to clip (Rabs (b - a) / (Rmin b a + eps))].
Proof.
  induction l as [|x l IH]; intros a b; [reflexivity|].
  destruct l as [|y l]; [reflexivity|].
  change (changes eps clip ((x :: y :: l) ++ [a; b])) with
    (clip_to clip (Rabs (y - x) / (Rmin y x + eps)) :: changes eps clip ((y :: l) ++ [a; b])).
  rewrite IH. reflexivity.
Qed.
Lemma dt_snoc : forall eps clip b3 l a b,
  eve_dt eps clip b3 (l ++ [a; b]) =
  eve_dt eps clip b3 (l ++ [a]) * b3 + (1 - b3) * clip_to clip (Rabs (b - a) / (Rmin b a + eps)).
Proof.
  intros. unfold eve_dt. rewrite changes_snoc, ema_snoc, !app_length. cbn [length].
  replace (length l + 2 - 1)%nat with (S (length l)) by lia.
  replace (length l + 1 - 1)%nat with (length l) by lia. cbn [pow]. ring.
Qed.
Lemma clip_range : forall clip d, 1 <= clip -> 1 / clip <= clip_to clip d <= clip.
Proof.
  intros clip d C. unfold clip_to.
  assert (1 / clip <= clip).
  { apply (Rmult_le_reg_r clip); [lra|]. unfold Rdiv. rewrite Rmult_assoc, Rinv_l by lra. nra. }
  split; [|apply Rmin_r]. apply Rmin_glb; [apply Rmax_r|auto].
Qed.
Lemma dt_range : forall eps clip b3 objs, 1 <= clip -> 0 <= b3 <= 1 ->
  1 / clip <= eve_dt eps clip b3 objs <= clip.
Proof.
  intros eps clip b3 objs C B.
  assert (O : 1 / clip <= 1 <= clip).
  { split; [|lra]. apply (Rmult_le_reg_r clip); [lra|]. unfold Rdiv. rewrite Rmult_assoc, Rinv_l by lra. lra. }
  induction objs as [|b l IH] using rev_ind.
  - unfold eve_dt. simpl. lra.
  - destruct l as [|a l] using rev_ind.
    + unfold eve_dt. simpl. lra.
    + clear IHl. rewrite <- app_assoc. cbn [app]. rewrite dt_snoc.
      pose proof (clip_range clip (Rabs (b - a) / (Rmin b a + eps)) C).
      set (d := eve_dt eps clip b3 (l ++ [a])) in *. set (q := clip_to _ _) in *. clearbody d q.
      split; nra.
Qed.

(** ** The run *)
Section Run.
  Variable mx : R.
  Notation NR := (RNum mx).
  Variable c : ecfg (N := NR).
  Variable f : SepFun NR (list NR) (list NR).
  Variable cb : Callbacks NR (list NR) (list NR).
  Variable x0 : list R.
  Notation n := (length x0).
  Hypothesis Hn : (0 < sf_num f)%nat.
  Hypothesis Hb : (0 < e_batch c)%nat.
  (* gradients (also modified ones) have the size of the iterate *)
  Hypothesis HG : forall h sh x b k, length x = n -> length (cb_grad cb h (snd (sf_evalgrad f sh x b k))) = n.
  Notation path := (eve_path mx n (e_step c) (e_b1 c) (e_b2 c) (e_b3 c) (e_eps c) (e_clip c) f cb x0).
  Notation body := (eve_body (N := NR) pow c f cb).

  Record Inv (s : est (N := NR)) : Prop := {
    ev_path : exists objs grads, path (v_tr s) objs grads (v_x s) /\
        v_m s = tab n (fun j => M1 (e_b1 c) (coord j grads)) /\
        v_v s = tab n (fun j => M2 (e_b2 c) (coord j grads)) /\
        v_dt s = eve_dt (e_eps c) (e_clip c) (e_b3 c) objs /\
        (v_i s = 0%nat <-> objs = []) /\ v_lastobj s = last objs 0;
    ev_len : length (v_x s) = n;
    ev_vis : v_i s = visits (rev (v_tr s));
    ev_shuf : v_shuf s = count_shuffles (v_tr s);
    ev_i : (v_i s <= e_limit c)%nat;
    ev_cf : (v_i s < e_limit c)%nat -> (v_cf s < sf_num f)%nat
  }.

  Lemma e_limit_pos : (0 < e_limit c)%nat.
  Proof. unfold e_limit. destruct (Nat.eqb_spec (e_max c) 0); [|lia]. apply size_max_pos. Qed.

  Lemma init_inv : Inv (eve_init (N := NR) x0).
  Proof.
    split; cbn [eve_init v_tr v_x v_m v_v v_dt v_i v_lastobj v_shuf v_cf]; try reflexivity; try lia.
    exists [], []. split.
    { apply ep_other; [apply ep_start|exact I]. }
    repeat split; try (apply tab_repeat); auto.
    cbn. unfold eve_dt. simpl. lra.
  Qed.

  Lemma visits_snoc : forall (h : list (event NR (list NR) (list NR))) e,
    visits (rev (e :: h)) = (visits (rev h) + match e with EvalGrad _ _ k _ _ => k | _ => 0 end)%nat.
  Proof.
    intros h e. unfold visits. cbn [rev]. rewrite visits_app_len. f_equal. destruct e; cbn [visited]; try reflexivity.
    rewrite app_length, map_length, seq_length. cbn. lia.
  Qed.
  Lemma shuf_cons : forall (h : list (event NR (list NR) (list NR))) e,
    count_shuffles (e :: h) = match e with Shuffled => S (count_shuffles h) | _ => count_shuffles h end.
  Proof. intros h e. destruct e; reflexivity. Qed.

  Lemma std_max : forall a b : R, emax2 (N := NR) a b = Rmax a b.
  Proof.
    intros a b. unfold emax2. cbn. destruct (Rltb_spec a b); [rewrite Rmax_right by lra|rewrite Rmax_left by lra]; reflexivity.
  Qed.
  Lemma std_min : forall a b : R, emin2 (N := NR) a b = Rmin a b.
  Proof.
    intros a b. unfold emin2. cbn. destruct (Rltb_spec b a); [rewrite Rmin_right by lra|rewrite Rmin_left by lra]; reflexivity.
  Qed.

  Definition same_core (s s' : est (N := NR)) : Prop :=
    v_i s' = v_i s /\ v_dt s' = v_dt s /\ v_m s' = v_m s /\ v_v s' = v_v s /\ v_x s' = v_x s /\ v_lastobj s' = v_lastobj s.
  Definition quiet_ev (e : event NR (list NR) (list NR)) : Prop :=
    match e with EvalGrad _ _ _ _ _ | Step _ => False | _ => True end.

  Record Inv0 (s : est (N := NR)) : Prop := {
    e0_path : exists objs grads, path (v_tr s) objs grads (v_x s) /\
        v_m s = tab n (fun j => M1 (e_b1 c) (coord j grads)) /\
        v_v s = tab n (fun j => M2 (e_b2 c) (coord j grads)) /\
        v_dt s = eve_dt (e_eps c) (e_clip c) (e_b3 c) objs /\
        (v_i s = 0%nat <-> objs = []) /\ v_lastobj s = last objs 0;
    e0_len : length (v_x s) = n;
    e0_vis : v_i s = visits (rev (v_tr s));
    e0_shuf : v_shuf s = count_shuffles (v_tr s);
    e0_i : (v_i s <= e_limit c)%nat
  }.
  Lemma inv_inv0 : forall s, Inv s -> Inv0 s.
  Proof. intros s []. split; auto. Qed.

  (* adding events that neither evaluate nor step *)
  Lemma inv0_quiet : forall s s' e, Inv0 s -> same_core s s' -> quiet_ev e -> v_tr s' = e :: v_tr s ->
    v_shuf s' = count_shuffles (v_tr s') -> Inv0 s'.
  Proof.
    intros s s' e I (E1 & E2 & E3 & E4 & E5 & E6) Q T Sh.
    destruct (e0_path s I) as (objs & grads & P1 & P2 & P3 & P4 & P5 & P6).
    split.
    - exists objs, grads. rewrite T, E5, E3, E4, E2, E1, E6. split; [apply ep_other; auto|]. auto.
    - rewrite E5. apply I.
    - rewrite E1, T, visits_snoc, (e0_vis s I). destruct e; try contradiction; symmetry; apply Nat.add_0_r.
    - exact Sh.
    - rewrite E1. apply I.
  Qed.

  Lemma epoch_end_ok : forall s, Inv0 s ->
    match eve_epoch_end (N := NR) c f cb s with
    | inl s' => Inv s' /\ v_i s' = v_i s
    | inr (Eret s') => Inv0 s'
    | inr (Eloop s') => False
    | inr Eub => False
    end.
  Proof.
    intros s I. unfold eve_epoch_end.
    set (tr1 := EndEpoch _ _ _ :: v_tr s).
    set (s1 := {| v_i := v_i s; v_cf := v_cf s; v_epoch := S (v_epoch s); v_overall := v_overall s;
                 v_lastall := v_lastall s; v_lastobj := v_lastobj s; v_dt := v_dt s; v_m := v_m s; v_v := v_v s;
                 v_term := v_term s || cb_stop cb tr1; v_x := v_x s; v_shuf := v_shuf s; v_tr := tr1 |}).
    assert (I1 : Inv0 s1).
    { eapply inv0_quiet with (s := s); [exact I|repeat split| |reflexivity|].
      - exact Logic.I.
      - cbn [s1 v_shuf v_tr]. unfold tr1. rewrite shuf_cons. apply I. }
    destruct (nisnan (v_overall s) || nisinf (v_overall s)); [exact I1|].
    destruct (nlt (nabs (nsub (v_lastall s) (v_overall s))) (e_tol c)); [exact I1|].
    set (tr2 := BeginEpoch _ _ _ :: tr1).
    set (s2 := {| v_i := v_i s; v_cf := v_cf s; v_epoch := S (v_epoch s); v_overall := v_overall s;
                 v_lastall := v_lastall s; v_lastobj := v_lastobj s; v_dt := v_dt s; v_m := v_m s; v_v := v_v s;
                 v_term := v_term s || cb_stop cb tr1; v_x := v_x s; v_shuf := v_shuf s; v_tr := tr2 |}).
    assert (I2 : Inv0 s2).
    { eapply inv0_quiet with (s := s1); [exact I1|repeat split| |reflexivity|].
      - exact Logic.I.
      - cbn [s2 v_shuf v_tr]. unfold tr2. rewrite shuf_cons. apply I1. }
    match goal with |- Inv ?s3 /\ _ => set (s' := s3) end.
    assert (I3 : Inv0 s').
    { unfold s'. destruct (e_shuffle c).
      - eapply inv0_quiet with (s := s2); [exact I2|repeat split| |reflexivity|].
        + exact Logic.I.
        + cbn [v_shuf v_tr]. rewrite shuf_cons. f_equal. apply I2.
      - destruct I2 as [A1 A2 A3 A4 A5]. split; [exact A1|exact A2|exact A3|exact A4|exact A5]. }
    split; [|reflexivity].
    destruct I3 as [A1 A2 A3 A4 A5]. split; [exact A1|exact A2|exact A3|exact A4|exact A5|].
    unfold s'. cbn [v_i v_cf]. intros L. destruct (Nat.eqb_spec (v_i s) (e_limit c)); [lia|]. exact Hn.
  Qed.

  Lemma last_snoc : forall (l : list R) a d, last (l ++ [a]) d = a.
  Proof. intros. apply last_last. Qed.

  Lemma body_ok : forall s, Inv s ->
    match body s with
    | inl s' => Inv s' /\ (v_i s < v_i s')%nat /\ (v_i s < e_limit c)%nat
    | inr (Eloop s') => exists objs grads, path (v_tr s') objs grads (v_x s') /\
                        (visits (rev (v_tr s')) <= e_limit c)%nat /\ v_shuf s' = count_shuffles (v_tr s')
    | inr (Eret s') => Inv0 s'
    | inr Eub => False
    end.
  Proof.
    intros s I. unfold eve_body.
    destruct ((v_i s <? e_limit c)%nat && negb (v_term s)) eqn:GO.
    2:{ cbn [negb]. destruct (ev_path s I) as (objs & grads & P & _). exists objs, grads.
        split; [exact P|]. split; [rewrite <- (ev_vis s I); apply I|apply I]. }
    cbn [negb]. apply andb_true_iff in GO as [GO TM]. apply Nat.ltb_lt in GO. apply negb_true_iff in TM.
    set (k := Nat.min (Nat.min (e_batch c) (e_limit c - v_i s)) (sf_num f - v_cf s)).
    pose proof (ev_cf s I GO) as CF.
    assert (K : (1 <= k)%nat /\ (v_i s + k <= e_limit c)%nat /\ (v_cf s + k <= sf_num f)%nat) by (unfold k; lia).
    destruct (sf_evalgrad f (v_shuf s) (v_x s) (v_cf s) k) as [o g] eqn:EG.
    set (tr1 := EvalGrad (v_x s) (v_cf s) k o g :: v_tr s).
    rewrite TM. cbn [orb].
    destruct (ev_path s I) as (objs & grads & P1 & P2 & P3 & P4 & P5 & P6).
    assert (V1 : visits (rev tr1) = (v_i s + k)%nat) by (unfold tr1; etransitivity; [apply visits_snoc|]; f_equal; symmetry; exact (ev_vis s I)).
    destruct (cb_stop cb tr1) eqn:ST.
    { cbn [v_tr v_x v_shuf]. exists objs, grads. split; [|split].
      - apply ep_stop; auto. rewrite <- (ev_shuf s I). exact EG.
      - rewrite V1. lia.
      - unfold tr1. rewrite shuf_cons. apply I. }
    set (g' := cb_grad cb tr1 g).
    assert (LG : length g' = n).
    { unfold g'. pose proof (HG tr1 (v_shuf s) (v_x s) (v_cf s) k (ev_len s I)) as Q. rewrite EG in Q. exact Q. }
    assert (G : g' = tab n (fun i => nth i g' 0)) by (rewrite <- LG at 1; apply tab_nth).
    set (grads' := grads ++ [(1, g')]). set (objs' := objs ++ [o]).
    assert (CS : forall i, coord i grads' = coord i grads ++ [(1, nth i g' 0)]).
    { intros i. unfold coord, grads'. rewrite map_app. reflexivity. }
    set (m := map2 _ (v_m s) g').
    assert (Em : m = tab n (fun i => M1 (e_b1 c) (coord i grads'))).
    { unfold m. rewrite P2. etransitivity; [apply f_equal, G|]. rewrite tab_map2. apply tab_ext. intros i.
      rewrite CS, M1_snoc. reflexivity. }
    set (v := map2 _ (v_v s) g').
    assert (Ev : v = tab n (fun i => M2 (e_b2 c) (coord i grads'))).
    { unfold v. rewrite P3. etransitivity; [apply f_equal, G|]. rewrite tab_map2. apply tab_ext. intros i.
      rewrite CS, M2_snoc. reflexivity. }
    set (dt := if (0 <? v_i s)%nat then _ else v_dt s).
    assert (Ed : dt = eve_dt (e_eps c) (e_clip c) (e_b3 c) objs').
    { unfold dt. destruct (Nat.ltb_spec 0 (v_i s)) as [Q|Q].
      - destruct objs as [|oo ol] using rev_ind; [exfalso; assert (v_i s = 0%nat) by (apply P5; reflexivity); lia|]. clear IHol.
        rewrite last_snoc in P6. unfold objs'. rewrite <- app_assoc. cbn [app]. rewrite dt_snoc, P4, P6.
        rewrite std_min, std_min, std_max. reflexivity.
      - assert (objs = []) as E by (apply P5; lia). unfold objs'. rewrite P4, E. reflexivity. }
    set (x' := map2 nsub (v_x s) _).
    assert (Ex : x' = eve_move n (e_step c) (e_b1 c) (e_b2 c) (e_b3 c) (e_eps c) (e_clip c) (visits (rev (v_tr s))) objs' grads' (v_x s)).
    { unfold x', eve_move. rewrite <- (ev_vis s I), Em, Ev, Ed. rewrite tab_map2.
      assert (EX : v_x s = tab n (fun i => nth i (v_x s) 0)) by (rewrite <- (ev_len s I) at 1; apply tab_nth).
      rewrite EX at 1. rewrite tab_map2. apply tab_ext. intros i. reflexivity. }
    set (tr2 := Step x' :: tr1).
    match goal with |- context [ (v_cf ?s3 mod sf_num f)%nat ] => set (s' := s3) end.
    assert (I' : Inv0 s').
    { split.
      - exists objs', grads'. cbn [s' v_tr v_x v_m v_v v_dt v_i v_lastobj]. split.
        + unfold tr2, tr1. rewrite Ex. apply ep_step; [exact P1|]. rewrite <- (ev_shuf s I). exact EG.
        + split; [exact Em|]. split; [exact Ev|]. split; [exact Ed|]. split.
          * split; [lia|]. intros Q. unfold objs' in Q. destruct objs; discriminate.
          * unfold objs'. rewrite last_snoc. reflexivity.
      - cbn [s' v_x]. rewrite Ex. unfold eve_move. apply tab_length.
      - cbn [s' v_i v_tr]. unfold tr2. rewrite visits_snoc, V1. lia.
      - cbn [s' v_shuf v_tr]. unfold tr2, tr1. rewrite !shuf_cons. apply I.
      - cbn [s' v_i]. lia. }
    destruct (Nat.eqb_spec (sf_num f) 0); [lia|].
    destruct (Nat.eqb_spec (v_cf s' mod sf_num f) 0) as [MZ|MZ].
    - pose proof (epoch_end_ok s' I') as EE.
      destruct (eve_epoch_end (N := NR) c f cb s') as [s3|[s3|s3|]]; try contradiction; [|exact EE].
      destruct EE as [A B]. split; [exact A|]. rewrite B. cbn [s' v_i]. lia.
    - split; [|cbn [s' v_i]; lia]. destruct I' as [A1 A2 A3 A4 A5]. split; [exact A1|exact A2|exact A3|exact A4|exact A5|].
      intros _. cbn [s' v_cf] in *. destruct (Nat.eq_dec (v_cf s + k) (sf_num f)) as [E|E]; [|lia].
      rewrite E, Nat.mod_same in MZ by lia. congruence.
  Qed.

  Definition done (e : eexit (N := NR)) : Prop :=
    match e with
    | Eloop s' => exists objs grads, path (v_tr s') objs grads (v_x s') /\
                        (visits (rev (v_tr s')) <= e_limit c)%nat /\ v_shuf s' = count_shuffles (v_tr s')
    | Eret s' => Inv0 s'
    | Eub => False
    end.

  Lemma exact_path : forall fuel shuf x i acc tr v tr' objs grads y,
    eve_exact (N := NR) c f fuel shuf x i acc tr = Some (v, tr') ->
    path tr objs grads y -> path tr' objs grads y /\ visits (rev tr') = visits (rev tr).
  Proof.
    induction fuel as [|fuel IH]; intros shuf x i acc tr v tr' objs grads y; cbn [eve_exact];
      destruct (i <? sf_num f)%nat; try discriminate.
    - intros E P. injection E as <- <-. auto.
    - intros E P. eapply IH in E.
      + rewrite visits_snoc in E. rewrite Nat.add_0_r in E. exact E.
      + apply ep_other; [exact P|exact I].
    - intros E P. injection E as <- <-. auto.
  Qed.

  Lemma eve_ok : forall fuel r, eve_optimize (N := NR) pow c f cb fuel x0 = Return r ->
    exists objs grads, path (rev (er_trace r)) objs grads (er_x r) /\ (visits (er_trace r) <= e_limit c)%nat.
  Proof.
    intros fuel r. unfold eve_optimize.
    destruct (loop body fuel (eve_init (N := NR) x0)) as [s|e] eqn:L; [discriminate|].
    assert (D : done e).
    { eapply (loop_inv_done body Inv done); [|exact init_inv|exact L].
      intros s IS. pose proof (body_ok s IS) as B. destruct (body s) as [s'|[s'|s'|]]; try exact B. tauto. }
    destruct e as [s|s|]; cbn [done] in D; [| |contradiction].
    - destruct D as (objs & grads & P & V & SH).
      destruct (e_exact c).
      + destruct (eve_exact (N := NR) c f fuel (v_shuf s) (v_x s) 0 n0 (v_tr s)) as [[v tr]|] eqn:EX; [|discriminate].
        intros E. injection E as E.
        assert (TR : rev (er_trace r) = EndOpt (v_x s) :: tr) by (rewrite <- E; apply (rev_involutive (EndOpt (v_x s) :: tr))).
        assert (VR : visits (er_trace r) = visits (rev (EndOpt (v_x s) :: tr))) by (rewrite <- E; reflexivity).
        assert (XR : er_x r = v_x s) by (rewrite <- E; reflexivity). rewrite TR, VR, XR.
        destruct (exact_path _ _ _ _ _ _ _ _ _ _ _ EX P) as [P' V'].
        exists objs, grads. split; [apply ep_other; [exact P'|exact I]|]. rewrite visits_snoc. lia.
      + intros E. injection E as E.
        assert (TR : rev (er_trace r) = EndOpt (v_x s) :: v_tr s) by (rewrite <- E; apply (rev_involutive (EndOpt (v_x s) :: v_tr s))).
        assert (VR : visits (er_trace r) = visits (rev (EndOpt (v_x s) :: v_tr s))) by (rewrite <- E; reflexivity).
        assert (XR : er_x r = v_x s) by (rewrite <- E; reflexivity). rewrite TR, VR, XR.
        exists objs, grads. split; [apply ep_other; [exact P|exact I]|]. rewrite visits_snoc. lia.
    - destruct (e0_path s D) as (objs & grads & P & _).
      intros E. injection E as E.
        assert (TR : rev (er_trace r) = EndOpt (v_x s) :: v_tr s) by (rewrite <- E; apply (rev_involutive (EndOpt (v_x s) :: v_tr s))).
        assert (VR : visits (er_trace r) = visits (rev (EndOpt (v_x s) :: v_tr s))) by (rewrite <- E; reflexivity).
        assert (XR : er_x r = v_x s) by (rewrite <- E; reflexivity). rewrite TR, VR, XR.
      exists objs, grads. split; [apply ep_other; [exact P|exact I]|]. rewrite visits_snoc.
      pose proof (e0_vis s D). pose proof (e0_i s D). lia.
  Qed.

  Lemma exact_term : forall fuel shuf x i acc tr, (sf_num f < fuel + i)%nat ->
    exists v tr', eve_exact (N := NR) c f fuel shuf x i acc tr = Some (v, tr').
  Proof.
    induction fuel as [|fuel IH]; intros shuf x i acc tr L; cbn [eve_exact]; destruct (Nat.ltb_spec i (sf_num f)); try lia.
    - eauto.
    - apply IH. lia.
    - eauto.
  Qed.
  Lemma eve_terminates : forall fuel, (e_limit c < fuel)%nat -> (sf_num f < fuel)%nat ->
    exists r, eve_optimize (N := NR) pow c f cb fuel x0 = Return r.
  Proof.
    intros fuel L1 L2. unfold eve_optimize.
    destruct (loop_terminates body Inv (fun s => e_limit c - v_i s)%nat) with (fuel := fuel) (s := eve_init (N := NR) x0) as [e E].
    - intros s IS. pose proof (body_ok s IS) as B. destruct (body s) as [s'|[s'|s'|]]; auto.
      destruct B as (A & B & C). split; [exact A|]. pose proof (ev_i s' A). lia.
    - exact init_inv.
    - cbn [eve_init v_i]. lia.
    - rewrite E.
      assert (D : done e).
      { eapply (loop_inv_done body Inv done); [|exact init_inv|exact E].
        intros s IS. pose proof (body_ok s IS) as B. destruct (body s) as [s'|[s'|s'|]]; try exact B. tauto. }
      destruct e as [s|s|]; [|eauto|contradiction].
      destruct (e_exact c); [|eauto].
      destruct (exact_term fuel (v_shuf s) (v_x s) 0 n0 (v_tr s)) as (v & tr & ->); [lia|]. eauto.
  Qed.
End Run.

Lemma e_limit_limit : forall mx (c : ecfg (N := RNum mx)), e_limit c = limit (e_max c).
Proof. intros. unfold e_limit. destruct (e_max c); reflexivity. Qed.
Definition eve_ok_limit mx (c : ecfg (N := RNum mx)) f cb x0 Hn Hb HG fuel r H :=
  eq_ind (e_limit c) (fun L => exists objs grads,
    eve_path mx (length x0) (e_step c) (e_b1 c) (e_b2 c) (e_b3 c) (e_eps c) (e_clip c) f cb x0
      (rev (er_trace r)) objs grads (er_x r) /\ (visits (er_trace r) <= L)%nat)
    (eve_ok mx c f cb x0 Hn Hb HG fuel r H) (limit (e_max c)) (e_limit_limit mx c).
Lemma eve_terminates_limit : forall mx (c : ecfg (N := RNum mx)) f cb x0,
  (0 < sf_num f)%nat -> (0 < e_batch c)%nat ->
  (forall h sh x b k, length x = length x0 -> length (cb_grad cb h (snd (sf_evalgrad f sh x b k))) = length x0) ->
  forall fuel : nat, (limit (e_max c) < fuel)%nat -> (sf_num f < fuel)%nat ->
  exists r, eve_optimize (N := RNum mx) pow c f cb fuel x0 = Return r.
Proof. intros mx c f cb x0 Hn Hb HG fuel L1 L2. rewrite <- e_limit_limit in L1. apply eve_terminates; assumption. Qed.
