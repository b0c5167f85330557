(** When an Eve run goes on, when it ends and what it returns. *)
From Coq Require Import List Arith Lia Bool ZArith.
From Verif.Base Require Import Num Loop Size Vec.
From Verif.Model Require Import Sgd Eve.
From Verif.Spec Require Import SgdSpec EveRunSpec.
From Verif.Proof Require Import SgdProof.
Import ListNotations.

Section Stop.
  Context {N : Num}.
  Notation X := (list N).
  Variable pw : N -> nat -> N.
  Variable c : ecfg (N := N).
  Variable f : SepFun N X X.
  Variable cb : Callbacks N X X.
  Notation event := (event N X X).
  Notation n := (sf_num f).
  Notation lim := (e_limit c).
  Hypothesis Hn : 0 < n.
  Hypothesis Hb : 0 < e_batch c.
  Notation log := (eve_log cb n (e_batch c) lim (e_tol c) (e_shuffle c)).
  Notation stop := (asked_to_stop cb).

  Definition at_head (h : list event) : Prop :=
    if count h mod n =? 0 then if count h =? 0 then match h with [BeginOpt _] => True | _ => False end else between (e_shuffle c) h
    else after_step h.
  Record Inv (s : est (N := N)) : Prop := {
    i_log : log (v_tr s);
    i_i : v_i s = count (v_tr s);
    i_lim : v_i s <= lim;
    i_term : v_term s = stop (v_tr s);
    i_epoch : v_epoch s = S (passes_begun (v_tr s));
    i_cf : v_i s < lim -> v_cf s = count (v_tr s) mod n;
    i_head : v_i s < lim -> at_head (v_tr s);
    i_run : v_overall s = running lim (v_tr s);
    i_pass : v_i s < lim -> v_overall s = fst (pass (v_tr s)) /\ v_lastall s = snd (pass (v_tr s));
    i_shuf : v_shuf s = count_shuffles (v_tr s)
  }.
  Definition over (e : eexit (N := N)) : Prop :=
    match e with
    | Eloop s => log (v_tr s) /\ run_over cb lim (v_tr s) /\ v_overall s = running lim (v_tr s) /\ v_shuf s = count_shuffles (v_tr s)
    | Eret s => log (v_tr s) /\ pass_ended (e_tol c) (v_tr s) /\ v_overall s = fst (pass (v_tr s))
    | Eub => False
    end.

  Lemma lim_pos : 0 < lim.
  Proof. unfold e_limit. destruct (Nat.eqb_spec (e_max c) 0); [apply size_max_pos|lia]. Qed.

  Lemma init_ok : forall x, Inv (eve_init x).
  Proof.
    intros x. split; cbn [eve_init v_tr v_i v_term v_epoch v_cf v_overall v_lastall v_shuf]; try reflexivity; try lia.
    - repeat split.
    - intros _. cbn. rewrite Nat.mod_0_l by lia. reflexivity.
    - intros _. unfold at_head. cbn [count]. rewrite Nat.mod_0_l by lia. exact I.
    - intros _. split; reflexivity.
  Qed.

  Lemma epoch_end : forall s,
    log (v_tr s) -> v_i s = count (v_tr s) -> v_i s <= lim -> v_term s = stop (v_tr s) ->
    v_epoch s = S (passes_begun (v_tr s)) -> after_step (v_tr s) -> count (v_tr s) mod n = 0 -> 0 < count (v_tr s) ->
    v_overall s = fst (pass (v_tr s)) -> v_lastall s = snd (pass (v_tr s)) -> v_shuf s = count_shuffles (v_tr s) ->
    match eve_epoch_end c f cb s with inl s' => Inv s' | inr e => over e end.
  Proof.
    intros s L I LM T E A M P O LA SH. unfold eve_epoch_end.
    set (e1 := EndEpoch (v_x s) (v_epoch s) (ndiv (v_overall s) (nofnat n))). set (tr1 := e1 :: v_tr s).
    assert (L1 : log tr1).
    { split; [|exact L]. split; [exact A|]. split; [exact M|]. split; [exact E|]. rewrite <- O. reflexivity. }
    assert (P1 : pass tr1 = pass (v_tr s)) by reflexivity.
    assert (PE : pass tr1 = (v_overall s, v_lastall s)) by (rewrite P1, O, LA; destruct (pass (v_tr s)); reflexivity).
    destruct (nisnan (v_overall s) || nisinf (v_overall s)) eqn:BAD.
    { split; [exact L1|]. cbn [v_tr v_overall]. split; [|rewrite PE; reflexivity]. unfold tr1, pass_ended, e1. cbn iota.
      fold e1 tr1. rewrite PE. unfold goes_on. cbn [fst snd]. rewrite BAD. reflexivity. }
    destruct (nlt (nabs (nsub (v_lastall s) (v_overall s))) (e_tol c)) eqn:TOL.
    { split; [exact L1|]. cbn [v_tr v_overall]. split; [|rewrite PE; reflexivity]. unfold tr1, pass_ended, e1. cbn iota.
      fold e1 tr1. rewrite PE. unfold goes_on. cbn [fst snd]. rewrite BAD, TOL. reflexivity. }
    set (e2 := BeginEpoch (v_x s) (S (v_epoch s)) (v_overall s)). set (tr2 := e2 :: tr1).
    assert (L2 : log tr2).
    { split; [|exact L1]. split; [exact Logic.I|]. split; [|split].
      - rewrite PE. unfold goes_on. cbn [fst snd]. rewrite BAD, TOL. reflexivity.
      - rewrite E. reflexivity.
      - rewrite PE. reflexivity. }
    assert (S2 : v_term s || cb_stop cb tr1 || cb_stop cb tr2 = stop tr2).
    { unfold tr2, tr1. cbn [asked_to_stop asks e1 e2]. rewrite !andb_true_l. fold tr1 tr2. rewrite T.
      destruct (stop (v_tr s)), (cb_stop cb tr1), (cb_stop cb tr2); reflexivity. }
    set (trs := if e_shuffle c then Shuffled :: tr2 else tr2).
    assert (CT : count trs = v_i s) by (unfold trs; destruct (e_shuffle c); symmetry; exact I).
    assert (PT : pass trs = (n0, v_overall s)) by (unfold trs; destruct (e_shuffle c); unfold tr2; cbn [pass e2]; rewrite PE; reflexivity).
    split; cbn [v_tr v_i v_term v_epoch v_cf v_overall v_lastall v_shuf]; fold trs.
    - unfold trs. destruct (e_shuffle c) eqn:SF; [|exact L2]. split; [|exact L2]. split; [exact eq_refl|exact Logic.I].
    - rewrite CT. reflexivity.
    - exact LM.
    - rewrite S2. unfold trs. destruct (e_shuffle c); reflexivity.
    - rewrite E. unfold trs. destruct (e_shuffle c); reflexivity.
    - intros LT. destruct (Nat.eqb_spec (v_i s) lim); [lia|]. cbn [negb]. rewrite CT, I, M. reflexivity.
    - intros _. unfold at_head. rewrite CT, I, M. change (0 =? 0) with true. cbn iota. destruct (Nat.eqb_spec (count (v_tr s)) 0); [lia|].
      unfold trs. destruct (e_shuffle c) eqn:SF; cbn; [reflexivity|exact eq_refl].
    - assert (RT : running lim trs = if count trs =? lim then v_overall s else n0) by (unfold trs; destruct (e_shuffle c); reflexivity).
      rewrite RT, CT. destruct (v_i s =? lim); reflexivity.
    - intros LT. destruct (Nat.eqb_spec (v_i s) lim); [lia|]. cbn [negb]. rewrite PT. split; reflexivity.
    - unfold trs. destruct (e_shuffle c); [cbn [count_shuffles]; f_equal|]; exact SH.
  Qed.

  Lemma body_ok : forall s, Inv s -> match eve_body pw c f cb s with inl s' => Inv s' | inr e => over e end.
  Proof.
    intros s I. unfold eve_body.
    destruct ((v_i s <? lim) && negb (v_term s)) eqn:GO.
    2:{ cbn [negb]. split; [apply I|]. split; [|split; apply I]. unfold run_over. rewrite <- (i_i s I), <- (i_term s I).
        apply andb_false_iff in GO. destruct GO as [GO|GO]; [left; apply Nat.ltb_ge; exact GO|right; apply negb_false_iff; exact GO]. }
    cbn [negb]. apply andb_true_iff in GO as [GO TM]. apply Nat.ltb_lt in GO. apply negb_true_iff in TM.
    set (k := Nat.min (Nat.min (e_batch c) (lim - v_i s)) (n - v_cf s)).
    pose proof (i_cf s I GO) as CF. assert (CL := Nat.mod_upper_bound (count (v_tr s)) n ltac:(lia)).
    assert (K : 1 <= k /\ v_i s + k <= lim /\ v_cf s + k <= n) by (unfold k; rewrite CF; lia).
    destruct (i_pass s I GO) as [PO PL].
    destruct (sf_evalgrad f (v_shuf s) (v_x s) (v_cf s) k) as [o g] eqn:EG.
    set (e1 := EvalGrad (v_x s) (v_cf s) k o g). set (tr1 := e1 :: v_tr s).
    assert (L1 : log tr1).
    { split; [|apply I]. cbn [may_follow e1]. split; [rewrite <- (i_term s I); exact TM|]. rewrite <- (i_i s I) at 1. split; [exact GO|].
      split; [exact CF|]. split; [unfold k; rewrite (i_i s I); reflexivity|]. rewrite CF. exact (i_head s I GO). }
    assert (ST1 : stop tr1 = cb_stop cb tr1).
    { unfold tr1. cbn [asked_to_stop asks e1]. fold e1 tr1. rewrite andb_true_l, <- (i_term s I), TM, orb_false_r. reflexivity. }
    rewrite TM. cbn [orb].
    destruct (cb_stop cb tr1) eqn:ST.
    { split; [exact L1|]. cbn [v_tr v_overall v_shuf]. split; [right; rewrite ST1; reflexivity|]. split; [|apply I].
      unfold tr1, e1, running. cbn [pass fst]. rewrite PO. reflexivity. }
    set (x' := map2 nsub (v_x s) _). set (e2 := Step x'). set (tr2 := e2 :: tr1).
    assert (L2 : log tr2) by (split; [|exact L1]; split; [rewrite ST1; reflexivity|exact Logic.I]).
    assert (ST2 : stop tr2 = cb_stop cb tr2).
    { unfold tr2. cbn [asked_to_stop asks e2]. fold e2 tr2. rewrite andb_true_l. fold (stop tr1). rewrite ST1, orb_false_r. reflexivity. }
    assert (C2 : count tr2 = v_i s + k) by (unfold tr2, tr1; cbn [count e1 e2]; rewrite (i_i s I); reflexivity).
    assert (M2 : (v_cf s + k) mod n = count tr2 mod n).
    { rewrite C2, CF, (i_i s I). rewrite Nat.add_mod_idemp_l by lia. reflexivity. }
    match goal with |- context [ v_cf ?s3 mod n ] => set (s' := s3) end.
    assert (PS : pass tr2 = (v_overall s', v_lastall s')).
    { unfold tr2, tr1. cbn [pass e1 e2 s' v_overall v_lastall]. rewrite PO, PL. reflexivity. }
    destruct (Nat.eqb_spec n 0) as [NZ|NZ]; [lia|].
    destruct (Nat.eqb_spec (v_cf s' mod n) 0) as [MZ|MZ].
    - apply epoch_end; cbn [s' v_tr v_i v_term v_epoch v_shuf]; fold tr2.
      + exact L2.
      + symmetry. exact C2.
      + lia.
      + symmetry. exact ST2.
      + exact (i_epoch s I).
      + exact Logic.I.
      + rewrite <- M2. exact MZ.
      + rewrite C2. lia.
      + rewrite PS. reflexivity.
      + rewrite PS. reflexivity.
      + exact (i_shuf s I).
    - split; cbn [s' v_tr v_i v_term v_epoch v_shuf v_cf]; fold tr2.
      + exact L2.
      + symmetry. exact C2.
      + lia.
      + symmetry. exact ST2.
      + exact (i_epoch s I).
      + intros _. rewrite <- M2. cbn [s' v_cf] in MZ. symmetry. apply Nat.mod_small.
        destruct (Nat.eq_dec (v_cf s + k) n) as [E|E]; [rewrite E, Nat.mod_same in MZ by lia; congruence|lia].
      + intros _. unfold at_head. rewrite <- M2. cbn [s' v_cf] in MZ. destruct (Nat.eqb_spec ((v_cf s + k) mod n) 0); [congruence|exact Logic.I].
      + unfold running, tr2, e2. cbn iota. fold e2 tr2. rewrite PS. reflexivity.
      + intros _. rewrite PS. split; reflexivity.
      + exact (i_shuf s I).
  Qed.

  (* the exact objective is computed as SGD does *)
  Definition as_sgd : Cfg N X X unit unit :=
    {| c_batch := e_batch c; c_max := e_max c; c_tol := e_tol c; c_shuffle := e_shuffle c; c_exact := e_exact c;
       c_up := fun u x _ _ => (u, x); c_dp := fun d _ s _ => (d, s) |}.
  Lemma eve_exact_sgd : forall fuel shuf x i acc tr, eve_exact c f fuel shuf x i acc tr = exact_loop as_sgd f fuel shuf x i acc tr.
  Proof. induction fuel as [|fuel IH]; intros; cbn [eve_exact exact_loop]; [reflexivity|]. destruct (i <? n); [apply IH|reflexivity]. Qed.

  Lemma ex_events_eval : forall x shuf m i, Forall is_eval (ex_events as_sgd f x shuf m i).
  Proof. intros x shuf m. induction m as [|m IH]; intros i; cbn; constructor; [exact I|apply IH]. Qed.

  Theorem eve_run : forall fuel x r, eve_optimize pw c f cb fuel x = Return r ->
    exists h evals, er_trace r = rev (EndOpt (er_x r) :: evals ++ h) /\ log h /\
      ((pass_ended (e_tol c) h /\ er_val r = fst (pass h) /\ evals = []) \/
       (run_over cb lim h /\
        if e_exact c then er_val r = full_objective f (e_batch c) (count_shuffles h) (er_x r) /\ Forall is_eval evals
        else er_val r = running lim h /\ evals = [])).
  Proof.
    intros fuel x r. unfold eve_optimize.
    destruct (loop (eve_body pw c f cb) fuel (eve_init x)) as [s|e] eqn:L; [discriminate|].
    assert (D : over e) by (eapply (loop_inv_done _ Inv over body_ok); [apply init_ok|exact L]).
    destruct e as [s|s|]; cbn [over] in D; [| |contradiction].
    - destruct D as (D1 & D2 & D3 & D4). destruct (e_exact c) eqn:EX.
      + rewrite eve_exact_sgd. destruct (exact_loop as_sgd f fuel (v_shuf s) (v_x s) 0 n0 (v_tr s)) as [[v tr]|] eqn:EL; [|discriminate].
        intros E. injection E as <-. apply exact_loop_value in EL; try assumption. destruct EL as (EV & m & ET).
        exists (v_tr s), (rev (ex_events as_sgd f (v_x s) (v_shuf s) m 0)). cbn [er_trace er_x er_val]. rewrite ET. split; [reflexivity|].
        split; [exact D1|]. right. split; [exact D2|]. split; [rewrite <- D4; exact EV|]. apply Forall_rev. apply ex_events_eval.
      + intros E. injection E as <-. exists (v_tr s), []. cbn [er_trace er_x er_val]. split; [reflexivity|]. split; [exact D1|].
        right. split; [exact D2|]. split; [exact D3|reflexivity].
    - destruct D as (D1 & D2 & D3). intros E. injection E as <-. exists (v_tr s), []. cbn [er_trace er_x er_val]. split; [reflexivity|].
      split; [exact D1|]. left. auto.
  Qed.

  Lemma limit_eq : lim = limit (e_max c).
  Proof. unfold e_limit, limit. destruct (e_max c); reflexivity. Qed.
  Theorem eve_run_limit : forall fuel x r, eve_optimize pw c f cb fuel x = Return r ->
    exists h evals, er_trace r = rev (EndOpt (er_x r) :: evals ++ h) /\
      eve_log cb n (e_batch c) (limit (e_max c)) (e_tol c) (e_shuffle c) h /\
      ((pass_ended (e_tol c) h /\ er_val r = fst (pass h) /\ evals = []) \/
       (run_over cb (limit (e_max c)) h /\
        if e_exact c then er_val r = full_objective f (e_batch c) (count_shuffles h) (er_x r) /\ Forall is_eval evals
        else er_val r = running (limit (e_max c)) h /\ evals = [])).
  Proof. rewrite <- limit_eq. exact eve_run. Qed.
End Stop.
