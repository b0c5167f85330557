From Coq Require Import List Arith Bool Lia.
From Verif.Base Require Import Num.
From Verif.Model Require Import Common Callbacks PopCMAES.
From Verif.Spec Require Import CommonSpec PopCMAESSpec.
From Verif.Proof Require Import CallbacksProof.
Import ListNotations.

Lemma list_sum_app' : forall a b, list_sum (a ++ b) = list_sum a + list_sum b.
Proof. induction a as [|x a IH]; intros b; simpl; [reflexivity|]. rewrite IH. lia. Qed.

Lemma counted_snoc : forall costs c, costs <> [] -> counted (costs ++ [c]) = counted costs + list_sum (costs ++ [c]).
Proof.
  intros costs c NE. unfold counted. rewrite app_length. cbn [length].
  replace (length costs + 1 - 1) with (S (length costs - 1)) by (destruct costs; [congruence|simpl; lia]).
  rewrite seq_S, map_app, list_sum_app'. f_equal.
  - f_equal. apply map_ext_in. intros i I. apply in_seq in I. f_equal. rewrite firstn_app.
    replace (S i - length costs) with 0 by (destruct costs; [congruence|simpl in *; lia]). cbn. apply app_nil_r.
  - cbn [map list_sum fold_right]. rewrite firstn_all2; [unfold list_sum; lia|]. rewrite app_length. destruct costs; [congruence|simpl; lia].
Qed.

Section Pop.
  Context {N : Num}.
  Notation vec := (list N).
  Notation res := (Res N vec vec).
  Variable O : OrdLaws N.
  Variable bipop : bool.
  Variables (maxRestarts maxFE lambda0 : nat) (step0 : N).
  Variable run : nat -> nat -> N -> res * nat.
  Variable grow : nat -> nat.
  Variable small : nat -> nat -> nat -> nat * N.

  Lemma watch_fold : forall (tr : list (ev N vec vec)) (s : StoreBest N vec),
    fold_left (fun s e => match e with Ev x v => sb_evaluate s x v | _ => s end) tr s =
    fold_left (fun s e => sb_evaluate s (fst e) (snd e)) (evals tr) s.
  Proof.
    induction tr as [|e tr IH]; intros s; [reflexivity|]. unfold evals in *. cbn [flat_map fold_left].
    rewrite fold_left_app, IH. destruct e; reflexivity.
  Qed.
  Lemma watch_obs : forall (rs : list (res * nat)) (r : res) c, watch (sb_run (observed rs)) r = sb_run (observed (rs ++ [(r, c)])).
  Proof.
    intros rs r c. unfold watch. rewrite watch_fold. unfold sb_run, observed. rewrite flat_map_app, fold_left_app.
    cbn [flat_map fst]. rewrite app_nil_r. reflexivity.
  Qed.

  (** the runs made so far, oldest first, and which of them the best so far is *)
  Definition PInv (s : pst) (rs : list (res * nat)) (j : nat) : Prop :=
    rev (q_runs s) = rs /\ q_sbc s = sb_run (observed rs) /\ q_best s = sb_run (observed (firstn (S j) rs)) /\
    q_fe s = list_sum (map snd rs) /\ q_total s = counted (map snd rs) /\
    exists r c, nth_error rs j = Some (r, c) /\ q_obj s = o_val r /\ forall r' c', In (r', c') rs -> nlt (o_val r') (o_val r) = false.

  (** Runs are made in turn, from the same point. *)
  Definition in_turn (rs : list (res * nat)) : Prop := forall i r c, nth_error rs i = Some (r, c) -> exists lam st, run i lam st = (r, c).

  Lemma pop_loop_ok : forall k restart s rs j, PInv s rs j -> in_turn rs -> length rs = S restart ->
    let s' := pop_loop bipop maxRestarts maxFE lambda0 step0 run grow small k restart s in
    exists rs' j', PInv s' (rs ++ rs') j' /\ in_turn (rs ++ rs') /\ length rs' <= k /\
      (length rs' = k \/ maxFE <= q_total s') /\
      (forall i, 0 < i < length rs' -> counted (map snd (rs ++ firstn i rs')) < maxFE).
  Proof.
    induction k as [|k IH]; intros restart s rs j I TU LR; cbn [pop_loop].
    - exists [], j. rewrite app_nil_r. split; [exact I|]. split; [exact TU|]. split; [simpl; lia|]. split; [left; reflexivity|simpl; lia].
    - set (big := negb bipop || _ || _ || _). 
      destruct (if big then (if big then grow (q_large s) else q_large s, step0) else small restart lambda0 (if big then grow (q_large s) else q_large s)) as [lam st].
      destruct (run (S restart) lam st) as [r cost] eqn:ER. cbn zeta.
      set (s1 := {| q_sbc := _; q_best := _; q_obj := _; q_large := _; q_fe := _; q_total := _; q_lb := _; q_sb := _; q_runs := _ |}).
      destruct I as (I1 & I2 & I3 & J1 & J2 & r0 & c0 & I4 & I5 & I6).
      assert (LJ : j < length rs) by (apply nth_error_Some; congruence).
      assert (NE : map snd rs <> []) by (destruct rs; simpl in *; [lia|discriminate]).
      assert (F1 : q_fe s1 = list_sum (map snd (rs ++ [(r, cost)]))).
      { unfold s1; cbn [q_fe]. rewrite map_app, list_sum_app', J1. cbn [map list_sum fold_right snd]. unfold list_sum. lia. }
      assert (F2 : q_total s1 = counted (map snd (rs ++ [(r, cost)]))).
      { change (q_total s1) with (q_total s + q_fe s1). rewrite F1, J2, map_app. cbn [map snd]. rewrite counted_snoc by exact NE. reflexivity. }
      assert (I' : exists j', PInv s1 (rs ++ [(r, cost)]) j').
      { destruct (nlt (o_val r) (q_obj s)) eqn:Q.
        - exists (length rs). split; [unfold s1; cbn; rewrite I1; reflexivity|].
          split; [unfold s1; cbn; rewrite I2; apply watch_obs|].
          split; [unfold s1; cbn [q_best]; rewrite ?Q, I2, firstn_all2 by (rewrite app_length; simpl; lia); apply watch_obs|].
          split; [exact F1|]. split; [exact F2|].
          exists r, cost. split; [rewrite nth_error_app2, Nat.sub_diag by lia; reflexivity|]. split; [reflexivity|].
          intros r' c' R. apply in_app_or in R as [R|[R|[]]]; [|injection R as <- <-; apply (ol_irrefl _ O)].
          specialize (I6 r' c' R). rewrite I5 in Q. destruct (nlt (o_val r') (o_val r)) eqn:Z; [|reflexivity].
          rewrite (ol_trans _ O _ _ _ Z Q) in I6. discriminate.
        - exists j. split; [unfold s1; cbn; rewrite I1; reflexivity|].
          split; [unfold s1; cbn; rewrite I2; apply watch_obs|].
          split; [unfold s1; cbn [q_best]; rewrite firstn_app; replace (S j - length rs) with 0 by lia; cbn [firstn]; rewrite app_nil_r; exact I3|].
          split; [exact F1|]. split; [exact F2|].
          exists r0, c0. split; [rewrite nth_error_app1 by lia; exact I4|]. split; [exact I5|].
          intros r' c' R. apply in_app_or in R as [R|[R|[]]]; [eapply I6; eauto|]. injection R as <- <-. rewrite <- I5. exact Q. }
      destruct I' as (j1 & I').
      assert (TU' : in_turn (rs ++ [(r, cost)])).
      { intros i r' c' H. destruct (Nat.lt_ge_cases i (length rs)) as [Q|Q].
        - rewrite nth_error_app1 in H by exact Q. eauto.
        - assert (i < length (rs ++ [(r, cost)])) by (apply nth_error_Some; congruence). rewrite app_length in H0. simpl in H0.
          assert (i = length rs) by lia. subst i. rewrite nth_error_app2, Nat.sub_diag in H by lia. injection H as <- <-.
          exists lam, st. rewrite LR. exact ER. }
      destruct (Nat.leb_spec maxFE (q_total s1)) as [Q|Q].
      + exists [(r, cost)], j1. split; [exact I'|]. split; [exact TU'|]. split; [simpl; lia|]. split; [right; exact Q|simpl; lia].
      + destruct (IH (S restart) s1 _ j1 I' TU') as (rs' & j' & H1 & H2 & H3 & H4 & H5); [rewrite app_length; simpl; lia|].
        exists ((r, cost) :: rs'), j'. rewrite <- app_assoc in H1, H2. split; [exact H1|]. split; [exact H2|].
        split; [simpl; lia|]. split; [destruct H4 as [H4|H4]; [left; simpl; lia|right; exact H4]|].
        intros i Hi. destruct i as [|i]; [lia|]. cbn [firstn]. destruct i as [|i].
        * rewrite firstn_O, <- F2. exact Q.
        * specialize (H5 (S i)). rewrite <- app_assoc in H5. apply H5. simpl in Hi. lia.
  Qed.

  Theorem pop_ok : forall v x rs,
    pop_optimize bipop maxRestarts maxFE lambda0 step0 run grow small = (v, x, rs) ->
    in_turn rs /\ 1 <= length rs <= S maxRestarts /\
    (length rs = S maxRestarts \/ maxFE <= counted (map snd rs)) /\
    (forall i, 1 < i < length rs -> counted (map snd (firstn i rs)) < maxFE) /\
    exists j r c, nth_error rs j = Some (r, c) /\ (forall r' c', In (r', c') rs -> nlt (o_val r') (o_val r) = false) /\
      {| sb_obj := v; sb_x := x |} = sb_run (observed (firstn (S j) rs)).
  Proof.
    intros v x rs E. unfold pop_optimize in E. destruct (run 0 lambda0 step0) as [r cost] eqn:ER.
    match type of E with context [pop_loop _ _ _ _ _ _ _ _ _ _ ?s] => set (s0 := s) in * end.
    assert (I : PInv s0 [(r, cost)] 0).
    { split; [reflexivity|]. split; [unfold s0; cbn [q_sbc]; apply (watch_obs [] r cost)|].
      split; [unfold s0; cbn [q_best]; apply (watch_obs [] r cost)|].
      split; [cbn; lia|]. split; [reflexivity|]. exists r, cost. split; [reflexivity|]. split; [reflexivity|].
      intros r' c' [H|[]]. injection H as <- <-. apply (ol_irrefl _ O). }
    destruct (pop_loop_ok maxRestarts 0 s0 _ 0 I) as (rs' & j & (H1 & H1' & H1'' & H1f & H1t & r1 & c1 & K1 & K2 & K3) & H2 & H3 & H4 & H5).
    { intros i r' c' H. destruct i as [|i]; [|destruct i; discriminate]. injection H as <- <-. eauto. }
    { reflexivity. }
    set (s' := pop_loop _ _ _ _ _ _ _ _ _ _ s0) in *. injection E as <- <- <-. rewrite H1.
    split; [exact H2|]. split; [simpl; lia|].
    split. { destruct H4 as [H4|H4]; [left; simpl; lia|right]. rewrite <- H1t. exact H4. }
    split. { intros [|[|i]] Hi; try lia. cbn [app firstn map]. apply (H5 (S i)). simpl in Hi. lia. }
    exists j, r1, c1. split; [exact K1|]. split; [exact K3|]. rewrite <- H1''. destruct (q_best s'); reflexivity.
  Qed.

  Lemma sb_least : forall (evs : list (vec * N)) y v, In (y, v) evs -> nlt v (sb_obj (sb_run evs)) = false.
  Proof.
    intros evs y v H. destruct (store_best O evs) as [(E & A)|(pre & x & o & post & E & R & _ & A & B)].
    - rewrite E. eapply A; eauto.
    - rewrite R. cbn. rewrite E in H. apply in_app_or in H as [H|[H|H]].
      + apply A in H. destruct (nlt v o) eqn:Q; [|reflexivity]. rewrite (ol_lt_le _ O _ _ Q) in H. discriminate.
      + injection H as -> ->. apply (ol_irrefl _ O).
      + eapply B; eauto.
  Qed.

  Theorem pop_least : forall v x rs,
    (forall i lam st, exists y o, In (Ev y o) (o_tr (fst (run i lam st))) /\ nisnan o = false /\ nle o (o_val (fst (run i lam st))) = true) ->
    pop_optimize bipop maxRestarts maxFE lambda0 step0 run grow small = (v, x, rs) ->
    forall r c, In (r, c) rs -> nlt (o_val r) v = false.
  Proof.
    intros v x rs H E r c R. destruct (pop_ok _ _ _ E) as (TU & _ & _ & _ & j & rj & cj & J1 & J2 & J3).
    destruct (TU j rj cj J1) as (lam & st & ER). destruct (H j lam st) as (y & o & Y1 & Y2 & Y3). rewrite ER in Y1, Y3. cbn in Y1, Y3.
    assert (OB : In (y, o) (observed (firstn (S j) rs))).
    { unfold observed. apply in_flat_map. exists (rj, cj). split.
      - clear - J1. revert rs J1. induction j as [|j IH]; intros [|a rs] J1; try discriminate; cbn in *; [injection J1 as ->; left; reflexivity|].
        right. apply (IH rs J1).
      - unfold evals. apply in_flat_map. exists (Ev y o). split; [exact Y1|left; reflexivity]. }
    apply sb_least in OB. rewrite <- J3 in OB. cbn in OB.
    destruct (nlt (o_val r) v) eqn:Q; [|reflexivity].
    assert (NV : nisnan v = false) by (destruct (nisnan v) eqn:Z; [rewrite (ol_nan_lt_r _ O _ _ Z) in Q; discriminate|reflexivity]).
    pose proof (ol_total _ O _ _ Y2 NV OB) as K.
    pose proof (ol_lt_le_trans _ O _ _ _ (ol_lt_le_trans _ O _ _ _ Q K) Y3) as K2. rewrite (J2 _ _ R) in K2. discriminate.
  Qed.
End Pop.
