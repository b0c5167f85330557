From Coq Require Import List Arith Bool Lia.
From Verif.Base Require Import Num Vec Size.
From Verif.Model Require Import Sgd Schedules.
From Verif.Spec Require Import SgdSpec SchedulesSpec.
From Verif.Proof Require Import SgdProof SgdMore SchedulesProof.
Import ListNotations.

(** ** Steps never outnumber visits *)
Section Steps.
  Context {N : Num} {X G U D : Type}.
  Variables (f : SepFun N X G) (up : U -> X -> N -> G -> U * X) (dp : D -> X -> N -> G -> D * N).
  Variable cb : Callbacks N X G.
  Lemma visits_app_len : forall (a b : list (event N X G)) k,
    length (visited k (a ++ b)) = length (visited k a) + length (visited 0 b).
  Proof.
    induction a as [|e a IH]; intros b k.
    - simpl. revert k. assert (Q : forall k k', length (visited k b) = length (visited k' b)).
      { induction b as [|e b IHb]; intros k k'; [reflexivity|].
        destruct e; cbn [visited]; rewrite ?app_length, ?map_length, ?seq_length; first [apply IHb | f_equal; apply IHb]. }
      intros k. apply Q.
    - destruct e; cbn [visited app]; rewrite ?app_length, ?map_length, ?seq_length, IH; lia.
  Qed.
  Lemma updates_bound : forall (c : Cfg N X G U D) x u d s fuel r,
    0 < sf_num f -> 0 < c_batch c -> 0 < c_max c ->
    optimize_with c f cb fuel u d s x = Return r ->
    length (step_points (r_trace r)) <= c_max c.
  Proof.
    intros c x u d s fuel r Hn Hb Hm H.
    pose proof (c63 c f cb x u d s fuel Hn Hb r H) as M.
    destruct (c01 c f cb x u d s fuel Hn Hb r H) as [_ B].
    destruct (c02_bound c f cb x u d s fuel Hn Hb r H) as [V _].
    assert (L : limit (c_max c) = c_max c) by (destruct (c_max c); [lia|reflexivity]). rewrite L in V.
    assert (Q : length (step_points (rev (rev (r_trace r)))) <= visits (rev (rev (r_trace r)))).
    { clear - M B. revert M B. generalize (c_up c) (c_dp c). intros up0 dp0 M B.
      assert (GEN : forall tr x1 u1 d1 h1, moved f up0 dp0 cb x u d s tr x1 u1 d1 h1 ->
        (forall y b k o g, In (EvalGrad y b k o g) tr -> 0 < k) ->
        length (step_points (rev tr)) <= visits (rev tr)).
      { clear M B. intros tr x1 u1 d1 h1' M.
        induction M as [|tr e y v w h M IH NE|tr b k o g y v w h M IH E]; intros B.
        - simpl. lia.
        - specialize (IH (fun y b k o g I => B y b k o g (or_intror I))).
          cbn [rev]. unfold visits, step_points in *. rewrite visits_app_len, flat_map_app, app_length.
          destruct e; try contradiction; simpl; lia.
        - assert (K : 0 < k) by (eapply B; right; left; reflexivity).
          assert (IH' : length (step_points (rev tr)) <= visits (rev tr)).
          { apply IH. intros y0 b' k' o' g'' I. eapply B. right; right; exact I. }
          unfold h1. cbn [rev]. rewrite <- app_assoc. unfold visits, step_points in *.
          rewrite visits_app_len, flat_map_app, !app_length. cbn [visited app flat_map length].
          rewrite !app_length, !map_length, !seq_length. simpl. lia. }
      eapply GEN; [exact M|]. intros y b k o g I. apply in_rev in I. apply (B _ _ _ _ _ I). }
    rewrite rev_involutive in Q. lia.
  Qed.
End Steps.

(** ** When snapshots are stored, and how many *)
Section Count.
  Context {N : Num}.
  Variable mul : nat -> nat.
  Variable t0 : nat.
  Variable cosf : N -> N.
  Variables pi c eb : N.
  Variable se : nat.
  Notation P := (period mul t0).
  Notation M := (mark mul t0).
  Notation lo := (phase_start mul t0).
  Hypothesis PP : forall k, 1 <= P k.

  Lemma stores_iff : forall n,
    stores mul t0 cosf pi c eb se n = true <-> exists k, n = M k + 1 /\ se <= P (S k).
  Proof.
    intros n. unfold stores. rewrite andb_true_iff, Nat.ltb_lt, Nat.leb_le.
    rewrite cyc_only_S. unfold cyc_only.
    destruct (cyc_inv mul t0 cosf pi c eb PP n0 n) as (k & L & E). rewrite E.
    cbn [cy_next cy_epoch]. split.
    - intros [A B]. exists k. split; [lia|]. revert B. unfold cyc_update. cbn [cy_next cy_epoch cy_restart].
      destruct (Nat.ltb_spec (M k) n); [|lia]. cbn [fst cy_restart]. auto.
    - intros (k' & -> & S'). assert (k' = k) as ->.
      { eapply (phase_unique mul t0) with (n := M k' + 1); [|exact L].
        split; [|lia]. destruct k'; cbn [phase_start mark]; [lia|]. pose proof (PP (S k')). lia. }
      split; [lia|]. unfold cyc_update. cbn [cy_next cy_epoch cy_restart].
      destruct (Nat.ltb_spec (M k) (M k + 1)); [|lia]. exact S'.
  Qed.

  Definition cr (s : nat * nat * nat) (i : nat) : nat * nat * nat :=
    let '(er, nr, k) := s in if nr <? i then (mul er, nr + mul er, S k) else (er, nr, k).
  Lemma count_inv : forall n, exists k,
    fold_left cr (seq 0 n) (t0, t0, 0) = (P k, M k, k) /\ lo k <= n <= M k + 1.
  Proof.
    induction n as [|n (k & E & L)].
    - exists 0. simpl. split; [reflexivity|lia].
    - rewrite seq_S, fold_left_app, E. simpl fold_left. unfold cr.
      destruct (Nat.ltb_spec (M k) n) as [Q|Q].
      + exists (S k). split; [reflexivity|]. cbn [phase_start mark]. pose proof (PP (S k)). lia.
      + exists k. split; [reflexivity|lia].
  Qed.
  Lemma count_phase : forall n, lo (count_restarts mul t0 n) <= n <= M (count_restarts mul t0 n) + 1.
  Proof.
    intros n. destruct (count_inv n) as (k & E & L).
    unfold count_restarts. change (fold_left _ _ _) with (fold_left cr (seq 0 n) (t0, t0, 0)).
    rewrite E. exact L.
  Qed.

  Lemma pick_length : forall {A} (p : nat -> bool) (l : list A) i,
    length (pick p i l) = length (filter p (seq i (length l))).
  Proof.
    induction l as [|x l IH]; intros i; simpl; [reflexivity|].
    rewrite app_length, IH. destruct (p i); reflexivity.
  Qed.

  Variable powm : nat -> nat.
  Hypothesis PW : forall k, P k <= powm k.
  Hypothesis MONO : forall i j, i < j -> powm i < powm j.
  Lemma count_bound : forall m n s,
    se = powm (count_restarts mul t0 m + 1 - s) -> n <= m -> s <= count_restarts mul t0 m + 1 ->
    length (filter (stores mul t0 cosf pi c eb se) (seq 0 n)) <= s.
  Proof.
    intros m n s SE L S'. set (K := count_restarts mul t0 m) in *.
    pose proof (count_phase m) as CP. fold K in CP.
    set (j := K + 1 - s) in *.
    assert (I : incl (filter (stores mul t0 cosf pi c eb se) (seq 0 n)) (map (fun k => M k + 1) (seq (j - 1) (K - (j - 1))))).
    { intros q Q. apply filter_In in Q as [Q1 Q2]. apply in_seq in Q1. apply stores_iff in Q2 as (k & -> & B).
      apply in_map_iff. exists k. split; [reflexivity|]. apply in_seq.
      assert (k < K).
      { destruct (Nat.lt_ge_cases k K); [auto|]. exfalso.
        pose proof (mark_le mul t0 K k ltac:(lia)). lia. }
      assert (j <= S k).
      { destruct (Nat.le_gt_cases j (S k)); [auto|]. exfalso.
        pose proof (MONO (S k) j ltac:(lia)). pose proof (PW (S k)). lia. }
      lia. }
    apply NoDup_incl_length in I; [|apply NoDup_filter, seq_NoDup].
    rewrite map_length, seq_length in I. unfold j in I. lia.
  Qed.
End Count.

(** ** The whole run *)
Section Run.
  Context {N : Num} {X G U : Type}.
  Variables (mul : nat -> nat) (t0 : nat) (cosf : N -> N) (pi h0 eb : N) (se : nat).
  Variable c : Cfg N X G U (cyc * list X).
  Variables (f : SepFun N X G) (cb : Callbacks N X G).
  Hypothesis PP : forall k, 1 <= period mul t0 k.
  Hypothesis DP : c_dp c = snap_dp mul cosf pi h0 eb se.
  Lemma snapshots_of_run : forall fuel u step x r,
    0 < sf_num f -> 0 < c_batch c ->
    optimize_with c f cb fuel u (cyc_init t0, []) step x = Return r ->
    exists p, snd (r_d r) = pick p 0 (step_points (r_trace r)) /\
      forall n, p n = true <-> exists k, n = mark mul t0 k + 1 /\ se <= period mul t0 (S k).
  Proof.
    intros fuel u step x r Hn Hb H.
    pose proof (c63 c f cb x u _ step fuel Hn Hb r H) as M. rewrite DP in M.
    apply snap_moved in M. cbv zeta in M. rewrite rev_involutive in M.
    exists (stores mul t0 cosf pi h0 eb se). split; [rewrite M; reflexivity|].
    apply stores_iff. exact PP.
  Qed.
  Lemma snapshots_bounded : forall powm wrap requested fuel u step x r,
    0 < sf_num f -> 0 < c_batch c -> 0 < c_max c ->
    (forall k, period mul t0 k <= powm k) -> (forall i j, i < j -> powm i < powm j) ->
    (forall a b, b <= a -> wrap a b = a - b) ->
    requested <= count_restarts mul t0 (c_max c) + 1 ->
    se = snapshot_epochs mul powm wrap t0 (c_max c) requested ->
    optimize_with c f cb fuel u (cyc_init t0, []) step x = Return r ->
    length (snd (r_d r)) <= requested.
  Proof.
    intros powm wrap rq fuel u step x r Hn Hb Hm PW MO WR RQ SE H.
    pose proof (c63 c f cb x u _ step fuel Hn Hb r H) as M. rewrite DP in M.
    apply snap_moved in M. cbv zeta in M. rewrite rev_involutive in M. rewrite M. cbn [snd].
    rewrite pick_length. eapply count_bound with (m := c_max c); eauto.
    - rewrite SE. unfold snapshot_epochs. rewrite WR; [reflexivity|exact RQ].
    - eapply updates_bound; eauto.
  Qed.
End Run.
