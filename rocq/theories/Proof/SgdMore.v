From Coq Require Import List Arith Bool Lia.
From Verif.Base Require Import Num Loop Size.
From Verif.Model Require Import Sgd.
From Verif.Spec Require Import SgdSpec.
From Verif.Proof Require Import SgdProof.
Import ListNotations.

Section M.
  Context {N : Num} {X G U D : Type}.
  Variable c : Cfg N X G U D.
  Variable f : SepFun N X G.
  Variable cb : Callbacks N X G.
  Notation event := (event N X G).

  Lemma runs_done sh ex p (tr : list event) q : runs f sh ex p tr q -> p <> PDone -> q = PDone ->
    exists tr' x, tr = tr' ++ [EndOpt x] /\ forall e, In e tr' -> is_endopt e = false.
  Proof.
    intros H. induction H as [p|p e q tr r Hs Hr IH]; intros Hp Hq; [congruence|].
    destruct (is_endopt e) eqn:Ee.
    - destruct e; try discriminate. assert (q = PDone) as -> by (inversion Hs; reflexivity).
      inversion Hr as [|? ? ? ? ? Hs']; subst; [|inversion Hs'].
      exists [], x. split; [reflexivity|]. intros ? [].
    - destruct IH as (tr' & x & -> & Hno); [| exact Hq |].
      { intros ->. inversion Hs; subst; discriminate. }
      exists (e :: tr'), x. split; [reflexivity|]. intros e' [<-|Hin]; auto.
  Qed.

  Variables (x0 : X) (u0 : U) (d0 : D) (st0 : N) (fuel : nat).
  Hypothesis Hn : 0 < sf_num f.
  Hypothesis Hb : 0 < c_batch c.

  Lemma c01 r : optimize_with c f cb fuel u0 d0 st0 x0 = Return r ->
    visited 0 (r_trace r) =
      map (fun j => ((if c_shuffle c then j / sf_num f else 0), j mod sf_num f))
          (seq 0 (visits (r_trace r))) /\
    (forall x b k o g, In (EvalGrad x b k o g) (r_trace r) ->
       0 < k <= c_batch c /\ b + k <= sf_num f).
  Proof.
    intros H. pose proof (fin_all c f cb x0 u0 d0 st0 Hn Hb fuel r H) as F. split.
    - apply (f_vis _ _ _ _ _ _ _ _ F).
    - intros x b k o g Hin. pose proof (f_batch _ _ _ _ _ _ _ _ F) as B. rewrite Forall_forall in B.
      apply (B _ Hin).
  Qed.

  Lemma c02_bound r : optimize_with c f cb fuel u0 d0 st0 x0 = Return r ->
    visits (r_trace r) <= limit (c_max c) /\
    (visits (r_trace r) = limit (c_max c) \/ stop_requested cb (r_trace r) \/
     stops_at (c_tol c) nmax (pass_sums n0 (r_trace r))).
  Proof.
    intros H. pose proof (fin_all c f cb x0 u0 d0 st0 Hn Hb fuel r H) as F.
    rewrite <- actual_max_limit. split; [apply (f_max _ _ _ _ _ _ _ _ F)|].
    destruct (f_why _ _ _ _ _ _ _ _ F) as [(A & _)|(_ & A & _)]; tauto.
  Qed.

  Lemma c02_terminates : limit (c_max c) < fuel -> sf_num f < fuel ->
    exists r, optimize_with c f cb fuel u0 d0 st0 x0 = Return r.
  Proof. intros. apply terminates_all; auto. rewrite actual_max_limit. assumption. Qed.

  Lemma c05 r pre e post : optimize_with c f cb fuel u0 d0 st0 x0 = Return r ->
    r_trace r = pre ++ e :: post -> asks e = true -> cb_stop cb (rev (pre ++ [e])) = true ->
    (forall e', In e' post -> is_evalgrad e' = false) /\
    (forall y, In (Step y) post -> is_evalgrad e = true /\ exists q, post = Step y :: q) /\
    exists x q, post = q ++ [EndOpt x].
  Proof.
    intros H E A S. pose proof (fin_all c f cb x0 u0 d0 st0 Hn Hb fuel r H) as F.
    pose proof (f_quiet _ _ _ _ _ _ _ _ F) as Q. rewrite E in Q.
    rewrite rev_app_distr in S. cbn [rev app] in S.
    assert (E' : rev (pre ++ e :: post) = rev post ++ e :: rev pre).
    { rewrite rev_app_distr. cbn [rev]. rewrite <- app_assoc. reflexivity. }
    specialize (Q _ _ _ E' A S). split; [|split].
    - intros e' Hin. apply (Q e'). apply in_rev in Hin. exact Hin.
    - intros y Hin. destruct (Q (Step y)) as [_ K]; [apply in_rev in Hin; exact Hin|].
      destruct (K y eq_refl) as [Hg [p1 Hp]]. split; [exact Hg|].
      exists (rev p1). rewrite <- (rev_involutive post), Hp, rev_app_distr. reflexivity.
    - destruct (runs_done _ _ _ _ _ (f_runs _ _ _ _ _ _ _ _ F)) as (tr' & x & Et & _); [discriminate|reflexivity|].
      exists x. rewrite E in Et. destruct (exists_last (l := e :: post)) as (q & z & Eq); [discriminate|].
      rewrite Eq, app_assoc in Et. apply app_inj_tail in Et as [_ ->].
      destruct q as [|a q]; cbn in Eq; injection Eq as -> ->; [discriminate A|].
      exists q. reflexivity.
  Qed.
End M.

(** Without any function, the first round computes [x % 0]. *)
Lemma zero_functions_ub {N : Num} {X G U D} (c : Cfg N X G U D) f cb u d s x fuel :
  sf_num f = 0 -> cb_stop cb [BeginEpoch x 1 n0; BeginOpt x] = false ->
  optimize_with c f cb (S fuel) u d s x = UB.
Proof.
  intros Hn Hs. unfold optimize_with. cbn [loop]. rewrite body_eq. cbn [init s_i s_term].
  rewrite Hs. pose proof (actual_max_pos c) as P. destruct (Nat.ltb_spec 0 (actual_max c)); [|lia].
  cbn [andb negb]. rewrite Hn. reflexivity.
Qed.

Section M2.
  Context {N : Num} {X G U D : Type}.
  Variable c : Cfg N X G U D.
  Variable f : SepFun N X G.
  Variable cb : Callbacks N X G.
  Variables (x0 : X) (u0 : U) (d0 : D) (st0 : N) (fuel : nat).
  Hypothesis Hn : 0 < sf_num f.
  Hypothesis Hb : 0 < c_batch c.

  Lemma c03_exact r : optimize_with c f cb fuel u0 d0 st0 x0 = Return r -> c_exact c = true ->
    ~ stops_at (c_tol c) nmax (pass_sums n0 (r_trace r)) ->
    r_val r = full_objective f (c_batch c) (count_shuffles (r_trace r)) (r_x r).
  Proof.
    intros H E Ns. pose proof (fin_all c f cb x0 u0 d0 st0 Hn Hb fuel r H) as F.
    destruct (f_why _ _ _ _ _ _ _ _ F) as [(A & _)|(_ & _ & A)]; [contradiction|].
    rewrite E in A. exact A.
  Qed.

  Lemma c03_running r : optimize_with c f cb fuel u0 d0 st0 x0 = Return r ->
    c_exact c = false \/ stops_at (c_tol c) nmax (pass_sums n0 (r_trace r)) ->
    (since [] (r_trace r) <> [] /\ r_val r = sum (since [] (r_trace r))) \/
    (since [] (r_trace r) = [] /\ exists ps, pass_sums n0 (r_trace r) = ps ++ [r_val r]) \/
    (since [] (r_trace r) = [] /\ r_val r = n0 /\ stop_requested cb (r_trace r) /\
     visits (r_trace r) < limit (c_max c)).
  Proof.
    intros H E. pose proof (fin_all c f cb x0 u0 d0 st0 Hn Hb fuel r H) as F.
    rewrite <- actual_max_limit.
    destruct (f_why _ _ _ _ _ _ _ _ F) as [(A & B & C)|(A & B & C)]; [tauto|].
    destruct E as [E|E].
    - rewrite E in C. destruct C as [C|[C|C]]; tauto.
    - exfalso. clear - A E. revert A E. generalize (nmax (n := N)).
      induction (pass_sums n0 (r_trace r)) as [|v l IH]; intros p; [intros _ []|].
      intros [A1 A2] E. destruct l as [|w l]; cbn in E; [congruence|]. destruct E as [_ E]. exact (IH v A2 E).
  Qed.

  Lemma c04 r : optimize_with c f cb fuel u0 d0 st0 x0 = Return r ->
    runs f (c_shuffle c) (c_exact c) PStart (r_trace r) PDone.
  Proof. intros H. apply (f_runs _ _ _ _ _ _ _ _ (fin_all c f cb x0 u0 d0 st0 Hn Hb fuel r H)). Qed.

  Definition from_start (t : list (event N X G)) : Prop :=
    exists p, t = p ++ [BeginEpoch x0 1 n0; BeginOpt x0].
  Lemma from_start_cons e t : from_start t -> from_start (e :: t).
  Proof. intros [p ->]. exists (e :: p). reflexivity. Qed.

  Lemma body_from_start s : from_start (s_tr s) ->
    match body c f cb s with
    | inl s' => from_start (s_tr s')
    | inr (Xloop s') => from_start (s_tr s')
    | inr (Xret s') => from_start (s_tr s')
    | inr Xub => True
    end.
  Proof.
    intros H. rewrite body_eq. destruct (negb _); [exact H|]. destruct (_ =? 0); [exact I|].
    assert (A : from_start (s_tr (after c f cb s))) by (cbn; do 2 apply from_start_cons; exact H).
    destruct (_ =? 0); [|exact A]. revert A. generalize (after c f cb s). intros s1 A.
    unfold epoch_end. cbv zeta.
    assert (B := from_start_cons (EndEpoch (s_x s1) (s_epoch s1) (ndiv (s_overall s1) (nofnat (sf_num f)))) _ A).
    destruct (_ || _); [exact B|]. destruct (nlt _ _); [exact B|]. cbn [s_tr].
    destruct (c_shuffle c); repeat apply from_start_cons; exact A.
  Qed.

  Lemma ex_loop_from_start : forall fl shuf x i acc t v t',
    exact_loop c f fl shuf x i acc t = Some (v, t') -> from_start t -> from_start t'.
  Proof.
    induction fl as [|fl IH]; intros shuf x i acc t v t'; cbn [exact_loop];
      destruct (_ <? _); intros E Hs; try discriminate E; try (injection E as <- <-; assumption).
    eapply IH; [exact E|]. apply from_start_cons; exact Hs.
  Qed.

  Lemma c04_once r : optimize_with c f cb fuel u0 d0 st0 x0 = Return r ->
    exists tr, r_trace r = BeginOpt x0 :: BeginEpoch x0 1 n0 :: tr ++ [EndOpt (r_x r)] /\
               (forall e, In e tr -> is_endopt e = false).
  Proof.
    intros H. pose proof (c04 r H) as R.
    destruct (runs_done _ _ _ _ _ _ R) as (tr & x & E & Hno); [discriminate|reflexivity|].
    assert (K : exists t, r_trace r = rev t ++ [EndOpt (r_x r)] /\ from_start t).
    { revert H. unfold optimize_with. destruct (loop _ _ _) as [s|e] eqn:El; [discriminate|].
      assert (L : match e with Xloop s' | Xret s' => from_start (s_tr s') | Xub => True end).
      { refine (loop_inv_done (body c f cb) (fun s => from_start (s_tr s))
          (fun e => match e with Xloop s' | Xret s' => from_start (s_tr s') | Xub => True end) _ fuel _ e _ El).
        - intros s Hs. pose proof (body_from_start s Hs) as B. destruct (body c f cb s) as [|[]]; exact B.
        - exists []. reflexivity. }
      destruct e as [s|s|]; [| |discriminate].
      - destruct (c_exact c).
        + destruct (exact_loop _ _ _ _ _ _ _ _) as [[v t]|] eqn:Ex; [|discriminate].
          intros H; injection H as <-. exists t. split; [reflexivity|]. eapply ex_loop_from_start; eauto.
        + intros H; injection H as <-. exists (s_tr s). auto.
      - intros H; injection H as <-. exists (s_tr s). auto. }
    destruct K as (t & Et & [p ->]). rewrite Et in E. apply app_inj_tail in E as [E1 _].
    rewrite rev_app_distr in *. cbn [rev app] in *. exists (rev p). rewrite Et. split; [reflexivity|].
    intros e Hin. apply Hno. rewrite <- E1. right; right. exact Hin.
  Qed.

  Lemma c63 r : optimize_with c f cb fuel u0 d0 st0 x0 = Return r ->
    moved f (c_up c) (c_dp c) cb x0 u0 d0 st0 (rev (r_trace r)) (r_x r) (r_u r) (r_d r) (r_step r).
  Proof. intros H. apply (f_mv _ _ _ _ _ _ _ _ (fin_all c f cb x0 u0 d0 st0 Hn Hb fuel r H)). Qed.
End M2.
