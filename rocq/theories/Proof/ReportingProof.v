From Coq Require Import List Arith Bool ZArith Lia.
From Verif.Base Require Import Num.
From Verif.Model Require Import Common Callbacks Reporting.
From Verif.Spec Require Import ReportingSpec.
Import ListNotations.

Section P.
Context {N : Num} {X : Type}.
Variable trunc : N -> option nat.
Notation rev_ := (rev_ (N := N) (X := X)).
Notation rep := (rep (N := N) (X := X)).
Notation state evs := (fold_left rep_on evs (rep_new (N := N) (X := X))).

Definition new_rec (evs : list rev_) (e : rev_) : list rec_ :=
  match e with
  | REndEpoch v q t => [mkRec v (norm_at evs) q t]
  | RStep q t => if existsb is_end_epoch evs then [] else [mkRec (value_at evs) (norm_at evs) q t]
  | _ => []
  end.
Lemma flat_map_ext_in {A B} (f g : A -> list B) l : (forall a, In a l -> f a = g a) -> flat_map f l = flat_map g l.
Proof. induction l as [|x l IH]; intros H; cbn; [reflexivity|]. rewrite (H x (or_introl eq_refl)), IH; [reflexivity|]. intros a Ha. apply H. right. exact Ha. Qed.
Lemma recorded_snoc evs e :
  recorded (evs ++ [e]) = (if is_end_epoch e && negb (existsb is_end_epoch evs) then [] else recorded evs) ++ new_rec evs e.
Proof.
  unfold recorded. rewrite app_length. cbn [length]. rewrite Nat.add_1_r, seq_S, flat_map_app. cbn [flat_map plus]. rewrite app_nil_r. f_equal.
  - rewrite existsb_app. cbn [existsb]. rewrite orb_false_r.
    destruct (existsb is_end_epoch evs) eqn:EE.
    { rewrite orb_true_l, andb_false_r. apply flat_map_ext_in. intros k Hk. apply in_seq in Hk.
      rewrite nth_error_app1 by lia. rewrite firstn_app, (proj2 (Nat.sub_0_le k (length evs))) by lia. cbn [firstn]. rewrite app_nil_r. reflexivity. }
    rewrite orb_false_l. destruct (is_end_epoch e) eqn:IE.
    + cbn [andb negb].
      enough (G : forall k, In k (seq 0 (length evs)) -> match nth_error (evs ++ [e]) k with
          | Some (REndEpoch v q t) => [mkRec v (norm_at (firstn k (evs ++ [e]))) q t]
          | Some (RStep q t) => if true then [] else [mkRec (value_at (firstn k (evs ++ [e]))) (norm_at (firstn k (evs ++ [e]))) q t]
          | _ => [] end = []).
      { rewrite (flat_map_ext_in _ (fun _ => []) _ G). clear. induction (seq 0 (length evs)); [reflexivity|exact IHl]. }
      intros k Hk. apply in_seq in Hk. rewrite nth_error_app1 by lia. destruct (nth_error evs k) as [e'|] eqn:E; [|reflexivity].
      destruct e'; try reflexivity. exfalso. apply nth_error_In in E.
      assert (X1 : existsb is_end_epoch evs = true) by (apply existsb_exists; eexists; split; [exact E|reflexivity]). congruence.
    + cbn [andb]. apply flat_map_ext_in. intros k Hk. apply in_seq in Hk.
      rewrite nth_error_app1 by lia. rewrite firstn_app, (proj2 (Nat.sub_0_le k (length evs))) by lia. cbn [firstn]. rewrite app_nil_r. reflexivity.
  - rewrite nth_error_app2, Nat.sub_diag by lia. cbn [nth_error]. rewrite firstn_app, Nat.sub_diag, firstn_all. cbn [firstn]. rewrite app_nil_r.
    rewrite existsb_app. cbn [existsb]. rewrite orb_false_r. unfold new_rec. destruct e; try reflexivity. cbn [is_end_epoch]. rewrite orb_false_r. reflexivity.
Qed.
Lemma count_snoc (p : rev_ -> bool) evs e : count p (evs ++ [e]) = count p evs + (if p e then 1 else 0).
Proof. unfold count. rewrite filter_app, app_length. cbn [filter]. destruct (p e); reflexivity. Qed.

Lemma state_ok evs :
  let s := state evs in
  rp_x0 s = start_at evs /\ rp_obj s = value_at evs /\
  (norm_at evs = if rp_hasG s then Some (rp_norm s) else None) /\
  rp_hasE s = existsb is_end_epoch evs /\
  rp_gcalls s = count is_grad evs /\ rp_ecalls s = count is_eval evs /\ rp_epochs s = count is_begin_epoch evs /\
  rp_objs s = map rc_loss (recorded evs) /\ rp_times s = map rc_time (recorded evs) /\
  rp_norms s = flat_map opt_list (map rc_norm (recorded evs)) /\ rp_steps s = flat_map opt_list (map rc_step (recorded evs)).
Proof.
  induction evs as [|e evs IH] using rev_ind; [repeat split|]. cbv zeta in *. rewrite fold_left_app. cbn [fold_left].
  set (s := state evs) in *. destruct IH as (A1 & A2 & A3 & A4 & A5 & A6 & A7 & A8 & A9 & A10 & A11).
  unfold start_at, value_at. rewrite !fold_left_app. cbn [fold_left]. fold (value_at evs) (start_at evs).
  assert (AN : norm_at (evs ++ [e]) = match e with RGrad g => Some g | _ => norm_at evs end) by (unfold norm_at; rewrite fold_left_app; reflexivity).
  rewrite AN, !count_snoc, existsb_app, recorded_snoc. cbn [existsb]. rewrite orb_false_r.
  destruct e; cbn [rep_on is_end_epoch is_grad is_eval is_begin_epoch is_step new_rec andb orb]; rewrite ?orb_false_r, ?app_nil_r, ?Nat.add_0_r, ?Nat.add_1_r;
    cbn [rp_x0 rp_obj rp_norm rp_hasG rp_hasE rp_gcalls rp_ecalls rp_epochs rp_objs rp_norms rp_steps rp_times];
    try solve [repeat split; try assumption; try reflexivity; try (f_equal; assumption)].
  - (* step *) rewrite <- A4. destruct (rp_hasE s) eqn:HE.
    + rewrite !app_nil_r. repeat split; assumption.
    + unfold rep_push. cbn [rp_x0 rp_obj rp_norm rp_hasG rp_hasE rp_gcalls rp_ecalls rp_epochs rp_objs rp_norms rp_steps rp_times].
      rewrite !map_app, !flat_map_app. cbn [map flat_map rc_loss rc_norm rc_step rc_time]. rewrite !app_nil_r, A8, A9, A10, A11, A3, A2.
      destruct (rp_hasG s); cbn [opt_list]; rewrite ?app_nil_r; repeat split; try assumption; try reflexivity; try congruence; destruct stepSize; cbn [opt_list]; rewrite ?app_nil_r; reflexivity.
  - (* end of an epoch *) rewrite orb_true_r. unfold rep_clear. rewrite <- A4. destruct (rp_hasE s) eqn:HE; cbn [negb];
    unfold rep_push; cbn [rp_x0 rp_obj rp_norm rp_hasG rp_hasE rp_gcalls rp_ecalls rp_epochs rp_objs rp_norms rp_steps rp_times].
    + rewrite !map_app, !flat_map_app. cbn [map flat_map rc_loss rc_norm rc_step rc_time]. rewrite !app_nil_r, A8, A9, A10, A11, A3.
      destruct (rp_hasG s); cbn [opt_list]; rewrite ?app_nil_r; repeat split; try assumption; try reflexivity; try congruence; destruct stepSize; cbn [opt_list]; rewrite ?app_nil_r; reflexivity.
    + cbn [app map flat_map rc_loss rc_norm rc_step rc_time]. rewrite !app_nil_r, A3.
      destruct (rp_hasG s); cbn [opt_list]; repeat split; try assumption; try reflexivity; try congruence; destruct stepSize; reflexivity.
Qed.

Lemma hasG_ok evs : rp_hasG (state evs) = existsb is_grad evs.
Proof.
  induction evs as [|e evs IH] using rev_ind; [reflexivity|]. rewrite fold_left_app, existsb_app. cbn [fold_left existsb]. rewrite orb_false_r, <- IH.
  destruct e; cbn [rep_on is_grad rp_hasG]; rewrite ?orb_false_r, ?orb_true_r; try reflexivity.
  - destruct (rp_hasE _); reflexivity.
  - unfold rep_clear. destruct (rp_hasE _); reflexivity.
Qed.
(** lists of options that are all present *)
Lemma opt_all (l : list (option N)) : Forall (fun o => o <> None) l ->
  forall i, nth_error (flat_map opt_list l) i = match nth_error l i with Some o => o | None => None end.
Proof.
  induction l as [|o l IH]; intros F i; [destruct i; reflexivity|]. inversion F; subst. destruct o as [v|]; [|congruence]. cbn [flat_map opt_list app].
  destruct i; [reflexivity|]. cbn [nth_error]. apply IH. assumption.
Qed.
Lemma opt_none (l : list (option N)) : Forall (fun o => o = None) l -> flat_map opt_list l = [].
Proof. induction 1 as [|o l -> F IH]; [reflexivity|exact IH]. Qed.

(** what is shown in a row is there *)
Definition shown (recs : list (rec_ (N := N))) (f : rec_ -> option N) : Prop :=
  Forall (fun r => f r <> None) recs \/ Forall (fun r => f r = None) recs.

Lemma rows_ok (s : rep) recs k :
  1 <= k ->
  rp_objs s = map rc_loss recs -> rp_times s = map rc_time recs ->
  (forall i r, nth_error recs i = Some r -> opt_at (rp_hasG s) (rp_norms s) i = Ret (rc_norm r)) ->
  (forall i r, nth_error recs i = Some r -> opt_at (match rp_steps s with [] => false | _ => true end) (rp_steps s) i = Ret (rc_step r)) ->
  forall fuel j, length recs <= fuel + j * k ->
  exists l, rows_loop fuel k (j * k) s = Ret l /\
    (forall q, q < length l -> exists w, nth_error l q = Some w /\ row_ok recs k (j + q) w) /\
    (forall q, q < length l <-> (j + q) * k < length recs).
Proof.
  intros Hk EO ET HN HS. assert (LO : length (rp_objs s) = length recs) by (rewrite EO; apply map_length).
  induction fuel as [|fuel IH]; intros j Hf.
  { cbn [rows_loop]. rewrite LO. replace (j * k <? length recs) with false by (symmetry; apply Nat.ltb_ge; lia).
    exists []. split; [reflexivity|]. cbn [length]. split; [intros q H; lia|]. intros q. split; [lia|nia]. }
  cbn [rows_loop]. rewrite LO. destruct (Nat.ltb_spec (j * k) (length recs)) as [L|L].
  2: { exists []. split; [reflexivity|]. cbn [length]. split; [intros q H; lia|]. intros q. split; [lia|nia]. }
  destruct (nth_error recs (j * k)) as [r|] eqn:ER; [|apply nth_error_None in ER; lia].
  rewrite (HN _ _ ER), (HS _ _ ER).
  destruct (IH (S j) ltac:(cbn [mult]; lia)) as (l & E & P1 & P2). cbn [mult] in E. rewrite (Nat.add_comm (j * k) k), E.
  assert (NL : forall i r', nth_error recs i = Some r' -> nth i (rp_objs s) n0 = rc_loss r').
  { intros i r' H. rewrite EO. apply nth_error_nth. apply map_nth_error. exact H. }
  eexists. split; [reflexivity|]. split.
  - intros q Hq. destruct q as [|q].
    + eexists. split; [reflexivity|]. rewrite Nat.add_0_r. exists r. split; [exact ER|]. cbn [w_iter w_loss w_change w_norm w_step w_time].
      split; [reflexivity|]. split; [apply NL; exact ER|]. split; [reflexivity|]. split; [reflexivity|].
      split; [rewrite ET; apply nth_error_nth; apply map_nth_error; exact ER|]. split.
      * intros ->. reflexivity.
      * intros j' ->. destruct (nth_error recs (j' * k)) as [r'|] eqn:ER'; [|apply nth_error_None in ER'; cbn [mult] in L; lia].
        exists r'. split; [reflexivity|]. replace (0 <? S j' * k) with true by (symmetry; apply Nat.ltb_lt; cbn [mult]; lia).
        replace (S j' * k - k) with (j' * k) by (cbn [mult]; lia). rewrite (NL _ _ ER), (NL _ _ ER'). reflexivity.
    + cbn [length] in Hq. destruct (P1 q ltac:(lia)) as (w & W1 & W2). exists w. split; [exact W1|]. replace (j + S q) with (S j + q) by lia. exact W2.
  - intros q. cbn [length]. destruct q as [|q]; [split; [intros _; rewrite Nat.add_0_r; exact L|lia]|].
    specialize (P2 q). replace (j + S q) with (S j + q) by lia. rewrite <- P2. lia.
Qed.

Lemma norm_before (l m : list rev_) : norm_at (l ++ m) = None -> norm_at l = None.
Proof.
  induction m as [|x m IH] using rev_ind; [rewrite app_nil_r; auto|]. rewrite app_assoc. intros H. apply IH. revert H.
  unfold norm_at. rewrite (fold_left_app _ (l ++ m)). cbn [fold_left]. destruct x; congruence.
Qed.
Lemma norm_shown (evs : list rev_) : norm_at evs = None \/ Forall (fun r => rc_norm r <> None) (recorded evs) ->
  forall i r, nth_error (recorded evs) i = Some r -> opt_at (rp_hasG (state evs)) (rp_norms (state evs)) i = Ret (rc_norm r).
Proof.
  intros H i r E. destruct (state_ok evs) as (_ & _ & A3 & _ & _ & _ & _ & _ & _ & A10 & _).
  destruct H as [H|H].
  - rewrite H in A3. destruct (rp_hasG (state evs)) eqn:HG; [discriminate|]. unfold opt_at. f_equal.
    (* nothing before either *)
    apply nth_error_In in E. unfold recorded in E. apply in_flat_map in E as (k & _ & E).
    assert (NK : norm_at (firstn k evs) = None) by (apply (norm_before _ (skipn k evs)); rewrite firstn_skipn; exact H).
    destruct (nth_error evs k) as [[]|]; try (cbn in E; contradiction).
    + destruct (existsb is_end_epoch evs); [contradiction|]. destruct E as [<-|[]]. symmetry. exact NK.
    + destruct E as [<-|[]]. symmetry. exact NK.
  - assert (HG : rp_hasG (state evs) = true).
    { destruct (rp_hasG (state evs)) eqn:HG; [reflexivity|]. exfalso. rewrite Forall_forall in H.
      pose proof (nth_error_In _ _ E) as I. apply H in I. apply I. apply nth_error_In in E. unfold recorded in E. apply in_flat_map in E as (k & _ & E).
      assert (NK : norm_at (firstn k evs) = None) by (apply (norm_before _ (skipn k evs)); rewrite firstn_skipn; exact A3).
      destruct (nth_error evs k) as [[]|]; try (cbn in E; contradiction).
      + destruct (existsb is_end_epoch evs); [contradiction|]. destruct E as [<-|[]]. exact NK.
      + destruct E as [<-|[]]. exact NK. }
    rewrite HG, A10. unfold opt_at. rewrite opt_all.
    + rewrite (map_nth_error rc_norm _ _ E). pose proof (nth_error_In _ _ E) as I. rewrite Forall_forall in H. apply H in I. destruct (rc_norm r); [reflexivity|congruence].
    + apply Forall_map. exact H.
Qed.
Lemma step_shown (evs : list rev_) : shown (recorded evs) rc_step ->
  forall i r, nth_error (recorded evs) i = Some r ->
    opt_at (match rp_steps (state evs) with [] => false | _ => true end) (rp_steps (state evs)) i = Ret (rc_step r).
Proof.
  intros H i r E. destruct (state_ok evs) as (_ & _ & _ & _ & _ & _ & _ & _ & _ & _ & A11). rewrite A11. pose proof (nth_error_In _ _ E) as I.
  destruct H as [H|H].
  - pose proof (opt_all (map rc_step (recorded evs))) as Q. rewrite Forall_map in Q. specialize (Q H i). rewrite (map_nth_error rc_step _ _ E) in Q.
    rewrite Forall_forall in H. apply H in I. destruct (rc_step r) as [v|]; [|congruence].
    destruct (flat_map opt_list (map rc_step (recorded evs))) as [|a l]; [destruct i; discriminate|]. unfold opt_at. rewrite Q. reflexivity.
  - rewrite opt_none by (apply Forall_map; exact H). rewrite Forall_forall in H. rewrite (H r I). reflexivity.
Qed.

Lemma last_nth {A} (l : list A) d : nth (length l - 1) l d = last l d.
Proof. induction l as [|a [|b l] IH]; try reflexivity. cbn [length last] in *. rewrite <- IH. cbn. rewrite Nat.sub_0_r. reflexivity. Qed.

Lemma report_ok percentage separable maxIt (evs : list rev_) (x : X) now k :
  (norm_at evs = None \/ Forall (fun r => rc_norm r <> None) (recorded evs)) -> shown (recorded evs) rc_step ->
  iteration_step trunc percentage (length (recorded evs)) = Some k ->
  exists s r, rep_run trunc percentage separable maxIt rep_new evs x now = Ret (s, r) /\
    ro_x0 r = start_at evs /\ ro_x r = x /\
    (forall j, j < length (ro_rows r) <-> j * k < length (recorded evs)) /\
    (forall j, j < length (ro_rows r) -> exists w, nth_error (ro_rows r) j = Some w /\ row_ok (recorded evs) k j w) /\
    (count is_eval evs = 0 -> ro_sum r = None) /\
    (0 < count is_eval evs -> exists u, ro_sum r = Some u /\
       let losses := match recorded evs with [] => [value_at evs] | _ => map rc_loss (recorded evs) end in
       su_first u = hd n0 losses /\ su_last u = last losses n0 /\ su_change u = nsub (hd n0 losses) (last losses n0) /\
       su_iters u = length (recorded evs) /\ su_epochs u = count is_begin_epoch evs /\
       su_ecalls u = count is_eval evs /\
       su_gcalls u = (if existsb is_grad evs then Some (count is_grad evs) else None) /\
       su_time u = last (match recorded evs with [] => [now] | _ => map rc_time (recorded evs) end) n0 /\
       su_limit u = if separable then match maxIt with Some m => Some (m, m =? length losses) | None => None end else None).
Proof.
  intros HN HS HK. unfold rep_run, rep_end. destruct (state_ok evs) as (A1 & A2 & A3 & A4 & A5 & A6 & A7 & A8 & A9 & A10 & A11).
  assert (LO : length (rp_objs (state evs)) = length (recorded evs)) by (rewrite A8; apply map_length).
  rewrite LO, HK. assert (K1 : 1 <= k).
  { unfold iteration_step in HK. destruct (trunc _) as [q|]; [|discriminate]. injection HK as <-. destruct (Nat.leb_spec q 0); lia. }
  destruct (rows_ok (state evs) (recorded evs) k K1 A8 A9 (norm_shown evs HN) (step_shown evs HS) (length (recorded evs)) 0 ltac:(lia)) as (l & E & P1 & P2).
  cbn [mult] in E. rewrite E. eexists. eexists. split; [reflexivity|]. cbn [ro_x0 ro_x ro_rows ro_sum].
  split; [exact A1|]. split; [reflexivity|]. split; [exact P2|]. split; [exact P1|]. rewrite A6. split.
  - intros ->. reflexivity.
  - intros HE. replace (count is_eval evs =? 0) with false by (symmetry; apply Nat.eqb_neq; lia). eexists. split; [reflexivity|].
    cbn [su_first su_last su_change su_iters su_epochs su_ecalls su_gcalls su_time su_limit].
    replace (0 <? count is_eval evs) with true by (symmetry; apply Nat.ltb_lt; lia). rewrite andb_true_r.
    rewrite A5, A7, (hasG_ok evs), A2, A8, A9. destruct (recorded evs) as [|r0 rs] eqn:ER.
    + cbn [length Nat.ltb Nat.leb negb map hd last nth Nat.sub]. repeat split; reflexivity.
    + change (0 <? length (r0 :: rs)) with true. cbn [negb]. rewrite !last_nth, !map_length. cbn [map hd nth].
      split; [reflexivity|]. split; [reflexivity|]. split; [reflexivity|]. split; [reflexivity|]. split; [reflexivity|].
      split; [reflexivity|]. split; [reflexivity|]. split; [reflexivity|]. cbn [length map]; rewrite ?map_length; reflexivity.
Qed.
End P.
