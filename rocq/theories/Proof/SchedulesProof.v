From Coq Require Import List Arith Bool Lia ZArith Reals Lra.
From Verif.Base Require Import Num Vec Instances.
From Verif.Model Require Import Sgd Schedules.
From Verif.Spec Require Import SgdSpec SchedulesSpec.
Import ListNotations.

(** ** ExponentialBackoff *)
Section Backoff.
  Context {N : Num}.
  Variable next : nat -> nat.
  Variable beta : N.
  Hypothesis NX : forall c, c < next c.
  Notation bo_run := (backoff_run next beta).
  Fixpoint npow (x : N) (n : nat) : N := match n with O => x | S k => npow (nmul x beta) k end.
  Lemma npow_S : forall n x, npow x (S n) = nmul (npow x n) beta.
  Proof. induction n as [|n IH]; intros x; [reflexivity|]. cbn [npow] in *. rewrite <- IH. reflexivity. Qed.

  Lemma iter_mono : forall j c, c + j <= Nat.iter j next c.
  Proof. induction j as [|j IH]; intros c; simpl; [lia|]. specialize (IH c). pose proof (NX (Nat.iter j next c)). lia. Qed.

  (* after the epochs up to e: j cutoffs passed, the next one lies ahead *)
  Lemma bo_inv : forall k s e, e <= bo_cutoff s ->
    exists j, bo_cutoff (bo_run s e k) = Nat.iter j next (bo_cutoff s) /\
      bo_step (bo_run s e k) = npow (bo_step s) j /\ e + k <= bo_cutoff (bo_run s e k) /\
      (forall i, i < j -> Nat.iter i next (bo_cutoff s) < e + k).
  Proof.
    unfold backoff_run. induction k as [|k IH]; intros s e L.
    - exists 0. simpl. repeat split; try lia.
    - rewrite seq_S, fold_left_app.
      destruct (IH s e L) as (j & A & B & C & D).
      set (s1 := fold_left (backoff_step next beta) (seq e k) s) in *.
      cbn [fold_left]. unfold backoff_step. destruct (bo_cutoff s1 <=? e + k) eqn:Q.
      + apply Nat.leb_le in Q. exists (S j). cbn [bo_cutoff bo_step]. split; [simpl; congruence|].
        split; [rewrite npow_S; congruence|]. split; [pose proof (NX (bo_cutoff s1)); lia|].
        intros i I. destruct (Nat.eq_dec i j) as [->|]; [lia|]. specialize (D i ltac:(lia)). lia.
      + apply Nat.leb_gt in Q. exists j. split; [auto|split; [auto|split; [lia|]]].
        intros i I. specialize (D i I). lia.
  Qed.

  Lemma cutoffs_count : forall fuel j c e,
    (forall i, i < j -> Nat.iter i next c <= e) -> e < Nat.iter j next c -> e < c + fuel ->
    cutoffs_upto next fuel c e = j.
  Proof.
    induction fuel as [|fuel IH]; intros j c e B A F.
    - simpl. destruct j as [|j]; [reflexivity|]. specialize (B 0 ltac:(lia)). simpl in B. lia.
    - simpl. destruct (Nat.leb_spec c e) as [L|L].
      + destruct j as [|j]; [simpl in A; lia|]. f_equal. pose proof (NX c).
        assert (IT : forall i, Nat.iter i next (next c) = Nat.iter (S i) next c).
        { clear. induction i as [|i IHi]; [reflexivity|]. simpl. rewrite IHi. reflexivity. }
        apply IH; [| |lia].
        * intros i I. rewrite IT. apply B. lia.
        * rewrite IT. auto.
      + destruct j as [|j]; [reflexivity|]. specialize (B 0 ltac:(lia)). simpl in B. lia.
  Qed.

  Lemma backoff_ok : forall step first e k, e <= first ->
    let s := {| bo_cutoff := first; bo_step := step |} in
    bo_step (bo_run s e (S k)) = npow step (cutoffs_upto next (S (e + k)) first (e + k)).
  Proof.
    intros step first e k L s. destruct (bo_inv (S k) s e L) as (j & A & B & C & D).
    rewrite B. f_equal. symmetry. apply cutoffs_count; [| |lia].
    - intros i I. specialize (D i I). change (bo_cutoff s) with first in D. lia.
    - rewrite A in C. change (bo_cutoff s) with first in C. lia.
  Qed.
End Backoff.

Section BackoffR.
  Variable mx : R.
  Local Open Scope R_scope.
  Lemma npow_R : forall (beta x : R) n, npow (N := RNum mx) beta x n = x * beta ^ n.
  Proof.
    intros beta x n. revert x. induction n as [|n IH]; intros x; [simpl; ring|].
    cbn [npow]. rewrite IH. cbn. ring.
  Qed.
  Lemma backoff_R : forall next (beta step : R) first e k, (forall c, c < next c)%nat -> (e <= first)%nat ->
    bo_step (backoff_run (N := RNum mx) next beta {| bo_cutoff := first; bo_step := (step : RNum mx) |} e (S k))
    = step * beta ^ cutoffs_upto next (S (e + k)) first (e + k).
  Proof. intros. rewrite <- npow_R. apply backoff_ok; assumption. Qed.
  Lemma backoff_mono : forall next (beta : R) (s : backoff (N := RNum mx)) e k,
    0 <= beta <= 1 -> 0 <= bo_step s ->
    0 <= bo_step (backoff_run (N := RNum mx) next beta s e (S k)) <= bo_step (backoff_run (N := RNum mx) next beta s e k).
  Proof.
    intros next beta s e k B S0.
    assert (P : forall j, 0 <= bo_step (backoff_run (N := RNum mx) next beta s e j)).
    { induction j as [|j IH]; [exact S0|]. unfold backoff_run in *. rewrite seq_S, fold_left_app. cbn [fold_left].
      unfold backoff_step at 1. destruct (_ <=? _)%nat; [|exact IH]. cbn. apply Rmult_le_pos; [exact IH|lra]. }
    split; [apply P|]. specialize (P k). unfold backoff_run in *. rewrite seq_S, fold_left_app. cbn [fold_left].
    unfold backoff_step at 1. destruct (_ <=? _)%nat; [|apply Rle_refl]. cbn.
    set (b := bo_step _) in *. change (T (RNum mx)) with R in b. nra.
  Qed.
  Lemma backoff_zero : forall (beta step : R) e k,
    bo_step (backoff_run (N := RNum mx) (fun c => c) beta {| bo_cutoff := 0; bo_step := (step : RNum mx) |} e k)
    = step * beta ^ k.
  Proof.
    intros beta step e k.
    assert (Q : forall k, bo_cutoff (backoff_run (N := RNum mx) (fun c => c) beta {| bo_cutoff := 0; bo_step := (step : RNum mx) |} e k) = 0%nat).
    { clear k. induction k as [|k IH]; [reflexivity|]. unfold backoff_run in *. rewrite seq_S, fold_left_app. cbn [fold_left].
      unfold backoff_step at 1. destruct (_ <=? _)%nat; [exact IH|exact IH]. }
    induction k as [|k IH]; [simpl; ring|]. specialize (Q k). unfold backoff_run in *. rewrite seq_S, fold_left_app. cbn [fold_left].
    unfold backoff_step at 1. rewrite Q. cbn [Nat.leb bo_step]. rewrite IH. cbn. ring.
  Qed.
End BackoffR.

(** ** CyclicalDecay *)
Section Cyc.
  Context {N : Num}.
  Variable mul : nat -> nat.
  Variable t0 : nat.
  Variable cosf : N -> N.
  Variables pi c eb : N.
  Notation P := (period mul t0).
  Notation M := (mark mul t0).
  Notation lo := (phase_start mul t0).
  Notation upd := (cyc_update mul cosf pi c eb).
  Hypothesis PP : forall k, 1 <= P k.

  Notation cyc_after := (Schedules.cyc_after mul cosf pi c eb t0).

  Lemma period_S : forall k, P (S k) = mul (P k).
  Proof. reflexivity. Qed.

  Lemma cyc_inv : forall step n, exists k,
    lo k <= n <= M k + 1 /\
    fst (cyc_after step n) = {| cy_restart := P k; cy_next := M k; cy_batch := n - Nat.max (lo k) (P k); cy_epoch := n |}.
  Proof.
    intros step. induction n as [|n (k & [L1 L2] & E)].
    - exists 0. simpl. split; [lia|]. reflexivity.
    - cbn [cyc_after]. destruct (cyc_after step n) as [s h]. cbn [fst] in E. subst s.
      unfold cyc_update. cbn [cy_restart cy_next cy_batch cy_epoch].
      destruct (Nat.ltb_spec (M k) n) as [Q|Q].
      + exists (S k). cbn [phase_start mark fst]. pose proof (PP (S k)). split; [lia|].
        rewrite <- period_S. f_equal; lia.
      + exists k. split; [lia|]. cbn [fst].
        destruct (Nat.leb_spec (P k) n); f_equal; lia.
  Qed.

  Lemma mark_le : forall j k, j <= k -> M j <= M k.
  Proof. induction 1; [lia|]. simpl. lia. Qed.
  Lemma phase_unique : forall j k n, lo j <= n <= M j + 1 -> lo k <= n <= M k + 1 -> j = k.
  Proof.
    assert (H : forall j k n, j < k -> lo j <= n <= M j + 1 -> lo k <= n <= M k + 1 -> False).
    { intros j k n L A B. destruct k as [|k]; [lia|]. cbn [phase_start] in B.
      pose proof (mark_le j k ltac:(lia)). lia. }
    intros j k n A B. destruct (Nat.lt_trichotomy j k) as [L|[L|L]]; [|auto|]; exfalso; eauto.
  Qed.

  Lemma schedule : forall step k n, lo k <= n <= M k + 1 ->
    snd (cyc_after step (S n)) =
      if P k <=? n then cosine_step cosf pi c eb (n - Nat.max (lo k) (P k)) else snd (cyc_after step n).
  Proof.
    intros step k n H. destruct (cyc_inv step n) as (k' & H' & E).
    assert (k' = k) by (eapply phase_unique; eauto). subst k'.
    cbn [cyc_after]. destruct (cyc_after step n) as [s h]. cbn [fst snd] in *. subst s.
    unfold cyc_update. cbn [cy_restart cy_next cy_batch cy_epoch].
    destruct (M k <? n); reflexivity.
  Qed.
End Cyc.

Section CycR.
  Variable mx : R.
  Local Open Scope R_scope.
  Lemma cosine_range : forall c eb b, 0 <= c ->
    0 <= cosine_step (N := RNum mx) cos PI c eb b <= c.
  Proof.
    intros c eb b C. unfold cosine_step. cbn.
    pose proof (COS_bound (nofnat (N := RNum mx) b / eb * PI)) as [A B].
    set (w := cos _) in *. change (T (RNum mx)) with R in w. nra.
  Qed.
  Lemma cyc_range : forall mul t0 c eb step n, 0 <= step <= c ->
    0 <= snd (cyc_after (N := RNum mx) mul cos PI c eb t0 step n) <= c.
  Proof.
    intros mul t0 c eb step n H. induction n as [|n IH]; [exact H|].
    cbn [cyc_after]. destruct (cyc_after (N := RNum mx) mul cos PI c eb t0 step n) as [s h]. cbn [snd] in IH.
    unfold cyc_update. destruct (cy_next s <? cy_epoch s)%nat; cbn [snd];
      destruct (cy_restart s <=? cy_epoch s)%nat; auto; apply cosine_range; lra.
  Qed.
  Lemma cosine_zero : forall c eb, cosine_step (N := RNum mx) cos PI c eb 0 = c.
  Proof.
    intros. unfold cosine_step, nofnat. cbn. change (@eq R (1 / 2 * c * (1 + cos (0 / eb * PI))) c).
    replace (0 / eb * PI) with 0 by (unfold Rdiv; ring). rewrite cos_0. field.
  Qed.
End CycR.

(** ** CyclicalDecay inside SGD *)
Section InSgd.
  Context {N : Num} {X G U : Type}.
  Variables (mul : nat -> nat) (t0 : nat) (cosf : N -> N) (pi c eb : N).
  Lemma cyc_moved : forall (f : SepFun N X G) (up : U -> X -> N -> G -> U * X) cb x0 u0 h0 tr x u d h,
    moved f up (cyc_dp mul cosf pi c eb) cb x0 u0 (cyc_init t0) h0 tr x u d h ->
    (d, h) = cyc_after mul cosf pi c eb t0 h0 (length (step_points (rev tr))).
  Proof.
    intros f up cb x0 u0 h0 tr x u d h M.
    induction M as [|tr e x u d h M IH NE|tr b k o g x u d h M IH E].
    - reflexivity.
    - cbn [rev]. unfold step_points in *. rewrite flat_map_app.
      destruct e; try contradiction; cbn [flat_map]; rewrite !app_nil_r; exact IH.
    - assert (PT : step_points (rev (Step x' :: h1)) = step_points (rev tr) ++ [x']).
      { cbn [rev]. unfold h1. cbn [rev]. unfold step_points. rewrite !flat_map_app. cbn [flat_map].
        rewrite !app_nil_r. reflexivity. }
      rewrite PT, app_length, Nat.add_1_r. cbn [cyc_after]. rewrite <- IH. unfold cyc_dp.
      destruct (cyc_update _ _ _ _ _ d h); reflexivity.
  Qed.
End InSgd.

(** ** SnapshotEnsembles inside SGD *)
Section Snap.
  Context {N : Num} {X G U : Type}.
  Variable mul : nat -> nat.
  Variable t0 : nat.
  Variable cosf : N -> N.
  Variables pi c eb : N.
  Variable se : nat.
  Notation dp := (snap_dp (X := X) (G := G) mul cosf pi c eb se).
  Notation D := (cyc * list X)%type.

  (* does update n store a snapshot? *)
  Definition cyc_only (n : nat) : cyc := fst (cyc_after (N := N) mul cosf pi c eb t0 n0 n).
  Definition stores (n : nat) : bool :=
    let s := cyc_only n in
    (cy_next s <? cy_epoch s) && (se <=? cy_restart (cyc_only (S n))).

  Lemma cyc_fst : forall s h h', fst (cyc_update (N := N) mul cosf pi c eb s h) = fst (cyc_update mul cosf pi c eb s h').
  Proof. intros. unfold cyc_update. destruct (cy_next s <? cy_epoch s); reflexivity. Qed.

  Lemma cyc_only_S : forall n, cyc_only (S n) = fst (cyc_update (N := N) mul cosf pi c eb (cyc_only n) n0).
  Proof.
    intros. unfold cyc_only. cbn [cyc_after]. destruct (cyc_after mul cosf pi c eb t0 n0 n) as [s h]. cbn [fst]. apply cyc_fst.
  Qed.

  Lemma pick_snoc : forall (p : nat -> bool) (l : list X) i x,
    pick p i (l ++ [x]) = pick p i l ++ (if p (i + length l) then [x] else []).
  Proof.
    induction l as [|y l IH]; intros i x; simpl.
    - rewrite Nat.add_0_r. destruct (p i); reflexivity.
    - rewrite IH, <- app_assoc. replace (S i + length l) with (i + S (length l)) by lia. reflexivity.
  Qed.

  Lemma snap_moved : forall (f : SepFun N X G) (up : U -> X -> N -> G -> U * X) cb x0 u0 h0 tr x u d h,
    moved f up dp cb x0 u0 (cyc_init t0, []) h0 tr x u d h ->
    let pts := step_points (rev tr) in
    d = (cyc_only (length pts), pick stores 0 pts).
  Proof.
    intros f up cb x0 u0 h0 tr x u d h M. induction M as [|tr e x u d h M IH NE|tr b k o g x u d h M IH E]; cbv zeta in *.
    - reflexivity.
    - cbn [rev]. unfold step_points in *. rewrite flat_map_app.
      destruct e; try contradiction; cbn [flat_map]; rewrite !app_nil_r; exact IH.
    - assert (PT : step_points (rev (Step x' :: h1)) = step_points (rev tr) ++ [x']).
      { cbn [rev]. unfold h1. cbn [rev]. unfold step_points. rewrite !flat_map_app. cbn [flat_map].
        rewrite !app_nil_r. reflexivity. }
      rewrite PT. set (pts := step_points (rev tr)) in *. clearbody x'. subst d.
      unfold snap_dp.
      assert (K : fst (cyc_update (N := N) mul cosf pi c eb (cyc_only (length pts)) h) = cyc_only (S (length pts)))
        by (rewrite cyc_only_S; apply cyc_fst).
      destruct (cyc_update mul cosf pi c eb (cyc_only (length pts)) h) as [c1 hn]. cbn [fst] in *. subst c1.
      rewrite pick_snoc, app_length, Nat.add_1_r. cbn [length]. f_equal.
      change (stores (0 + length pts)) with
        ((cy_next (cyc_only (length pts)) <? cy_epoch (cyc_only (length pts))) &&
         (se <=? cy_restart (cyc_only (S (length pts))))).
      destruct ((cy_next _ <? _) && _); [reflexivity|rewrite app_nil_r; reflexivity].
  Qed.
End Snap.
