(** Adam and AMSGrad on three linear functions. *)
From Coq Require Import List Arith Bool Reals Lra Lia.
From Verif.Base Require Import Num Instances.
From Verif.Model Require Import Sgd Updates SgdPolicies.
From Verif.Spec Require Import SgdSpec Gradient ConvergeSpec RegretSpec DriftSpec.
From Verif.Proof Require Import SgdMore SmoothProof RegretProof.
Import ListNotations.
Local Open Scope R_scope.

Section Cyclic.
  Variable mx : R.
  Notation RN := (RNum mx).
  Notation event := (event RN (list R) (list R)).
  Context {U : Type}.
  Variables (up : U -> list R -> R -> list R -> U * list R) (alpha : R).

  Lemma vis_app : forall (a b : list event) j, map snd (visited j (a ++ b)) = map snd (visited j a) ++ map snd (visited 0 b).
  Proof.
    assert (T : forall (a : list event) i j, map snd (visited i a) = map snd (visited j a)).
    { induction a as [|e a IH]; intros i j; [reflexivity|]. destruct e; cbn [visited]; rewrite ?map_app; auto.
      rewrite !map_map, (IH i j). reflexivity. }
    induction a as [|e a IH]; intros b j; [apply T|]. destruct e; cbn [visited app]; rewrite ?map_app, ?IH; auto. rewrite app_assoc. reflexivity.
  Qed.
  (** the state after T steps *)
  Definition cyc (u0 : U) (x0 : list R) (T : nat) : U * list R :=
    fold_left (fun ux t => up (fst ux) (snd ux) alpha [coef (t mod 3)]) (seq 0 T) (u0, x0).
  Lemma cyc_S u0 x0 T : cyc u0 x0 (S T) = up (fst (cyc u0 x0 T)) (snd (cyc u0 x0 T)) alpha [coef (T mod 3)].
  Proof. unfold cyc. rewrite seq_S, fold_left_app. reflexivity. Qed.

  Variable cb : Callbacks RN (list R) (list R).
  Hypothesis CB : forall h g, cb_grad cb h g = g.
  Lemma cyc_moved u0 x0 h x u d s :
    moved (N := RN) (lin3 mx) up (sgd_no_decay (N := RN)) cb x0 u0 tt alpha h x u d s ->
    (forall y b k o g, In (EvalGrad y b k o g) h -> k = 1%nat) ->
    forall T, map snd (visited 0 (rev h)) = map (fun j => j mod 3)%nat (seq 0 T) -> s = alpha /\ (u, x) = cyc u0 x0 T.
  Proof.
    intros M. induction M as [|h e x u d s M IH NE|h b k o g x u d s M IH E h1 g' x']; intros K T V.
    - destruct T; [|discriminate]. split; reflexivity.
    - apply IH; [intros; eapply K; right; eassumption|]. rewrite <- V. cbn [rev]. rewrite vis_app. destruct e; cbn; try contradiction; rewrite app_nil_r; reflexivity.
    - assert (G' : g' = g) by apply CB. clearbody g'. subst g'. assert (k = 1%nat) by (eapply K; right; left; reflexivity). subst k.
      unfold h1 in *. cbn [rev] in V. rewrite !vis_app in V. cbn in V. rewrite app_nil_r in V.
      destruct T as [|T]; [cbn in V; apply app_eq_nil in V as [_ V]; discriminate|].
      rewrite seq_S, map_app in V. cbn [map plus] in V. apply app_inj_tail in V as [V EB].
      destruct (IH ltac:(intros; eapply K; right; right; eassumption) T V) as [-> EX].
      split; [reflexivity|]. rewrite cyc_S, <- EX. cbn [fst snd]. unfold x'.
      cbn [sf_evalgrad lin3] in E. injection E as _ EG. cbn in EG. rewrite Rplus_0_r in EG. subst g. subst b. symmetry. apply surjective_pairing.
  Qed.
  Theorem cyc_run (c : Cfg RN (list R) (list R) U unit) u0 x0 fuel r E :
    (forall h, cb_stop cb h = false) -> c_batch c = 1%nat -> c_max c = (3 * S E)%nat -> c_tol c = 0 ->
    c_up c = up -> c_dp c = sgd_no_decay (N := RN) ->
    optimize_with c (lin3 mx) cb fuel u0 tt alpha x0 = Return r -> (r_u r, r_x r) = cyc u0 x0 (3 * S E).
  Proof.
    intros CS HB HM HT EU ED RUN.
    assert (N3 : (0 < sf_num (lin3 mx))%nat) by (cbn; lia). assert (B1 : (0 < c_batch c)%nat) by lia.
    destruct (c01 c (lin3 mx) cb x0 _ _ _ fuel N3 B1 r RUN) as [V1 V2].
    destruct (c02_bound c (lin3 mx) cb x0 _ _ _ fuel N3 B1 r RUN) as [_ V3].
    assert (VN : visits (r_trace r) = (3 * S E)%nat).
    { destruct V3 as [V3|[V3|V3]].
      - rewrite V3, HM. reflexivity.
      - destruct V3 as (? & ? & ? & _ & _ & F). rewrite CS in F. discriminate.
      - exfalso. rewrite HT in V3. revert V3. generalize (@nmax RN). generalize (pass_sums (@n0 RN) (r_trace r)).
        assert (C0 : forall p v : R, converged (N := RN) 0 p v = false).
        { intros p v. unfold converged. cbn. destruct (Rltb_spec (Rabs (p - v)) 0) as [F|F]; [pose proof (Rabs_pos (p - v)); lra|reflexivity]. }
        induction l as [|v l IH]; intros p; [auto|]. cbn [stops_at]. destruct l as [|w l].
        + rewrite C0. discriminate.
        + intros [_ F]. exact (IH _ F). }
    assert (M := c63 c (lin3 mx) cb x0 _ _ _ fuel N3 B1 r RUN). rewrite EU, ED in M.
    apply (cyc_moved _ _ _ _ _ _ _ M).
    - intros y b k o g I. apply in_rev in I. specialize (V2 y b k o g I). lia.
    - rewrite rev_involutive, V1, VN, map_map. reflexivity.
  Qed.
End Cyclic.

Lemma sqrt_between a v b : 0 <= a -> 0 <= b -> a * a <= v -> v <= b * b -> a <= sqrt v <= b.
Proof.
  intros A B H1 H2. split.
  - rewrite <- (sqrt_square a A). apply sqrt_le_1; nra.
  - rewrite <- (sqrt_square b B). apply sqrt_le_1; nra.
Qed.

Section Drift.
  Variable mx : R.
  Notation RN := (RNum mx).
  Variables alpha eps : R.
  Hypothesis HA : 0 < alpha.
  Hypothesis HE : 0 < eps <= 1 / 100.
  Notation beta := (1 / 101).

  Lemma pow_small t : (1 <= t)%nat -> 0 <= beta ^ t <= beta.
  Proof.
    intros H. destruct t as [|t]; [lia|]. clear H. induction t as [|t IH]; [cbn; lra|]. cbn [pow] in *. lra.
  Qed.
  Lemma pow_smaller t : (2 <= t)%nat -> 0 <= beta ^ t <= 1 / 10000.
  Proof. intros H. destruct t as [|t]; [lia|]. pose proof (pow_small t ltac:(lia)). cbn [pow]. lra. Qed.

  (** one Adam step with b1 = 0, b2 = 1/101 *)
  Lemma adam_one (s : @adam_st RN) (x g : R) :
    let v := a_v s * beta + (1 - beta) * (g * g) in
    adam_up (N := RN) pow eps 0 beta s x alpha g =
      (@Build_adam_st RN g v (a_w s) (S (a_t s)), x - alpha * (sqrt (1 - beta ^ S (a_t s)) * g / (sqrt v + eps))).
  Proof.
    cbv zeta. unfold adam_up. change (T RN) with R in *. cbn [n0 n1 nadd nsub nmul ndiv nsqrt RNum].
    replace (a_m s * 0 + (1 - 0) * g) with g by ring.
    replace (1 - 0 ^ S (a_t s)) with 1 by (cbn [pow]; ring).
    f_equal. unfold Rdiv. rewrite Rinv_1. ring.
  Qed.
  Definition adam_ok (x0 : R) (E : nat) (ux : list (@adam_st RN) * list R) : Prop :=
    exists s x, ux = ([s], [x]) /\ a_t s = (3 * E)%nat /\ 0 <= a_v s <= 100 /\ x >= x0 + INR E * (alpha / 2).

  Lemma adam_step_list (s : @adam_st RN) (x g : R) :
    sgd_adam (N := RN) pow eps 0 beta [s] [x] alpha [g] =
    ([fst (adam_up (N := RN) pow eps 0 beta s x alpha g)], [snd (adam_up (N := RN) pow eps 0 beta s x alpha g)]).
  Proof. exact (vec_up_cons (N := RN) _ s [] x [] alpha g []). Qed.

  Lemma mod3 E : (((3 * E) mod 3 = 0) /\ (S (3 * E) mod 3 = 1) /\ (S (S (3 * E)) mod 3 = 2))%nat.
  Proof.
    replace (3 * E)%nat with (0 + E * 3)%nat by lia. change (S (0 + E * 3))%nat with (1 + E * 3)%nat. change (S (1 + E * 3))%nat with (2 + E * 3)%nat.
    rewrite !Nat.mod_add by lia. auto.
  Qed.
  Lemma adam_cyc x0 : forall E, adam_ok x0 E (cyc (sgd_adam (N := RN) pow eps 0 beta) alpha (sgd_adam_init (N := RN) [x0]) [x0] (3 * E)).
  Proof.
    induction E as [|E IH].
    - exists (@adam_init RN), x0. split; [reflexivity|]. cbn. split; [reflexivity|]. split; lra.
    - replace (3 * S E)%nat with (S (S (S (3 * E)))) by lia. rewrite !cyc_S. destruct IH as (s & x & -> & ET & EV & EX).
      destruct (mod3 E) as (-> & -> & ->). cbn [fst snd coef].
      rewrite adam_step_list, adam_one. cbn [fst snd].
      rewrite adam_step_list, adam_one. cbn [fst snd a_v a_t a_w].
      rewrite adam_step_list, adam_one. cbn [fst snd a_v a_t a_w].
      change (T RN) with R in *.
      set (v1 := a_v s * beta + (1 - beta) * (10 * 10)). set (v2 := v1 * beta + (1 - beta) * (-1 * -1)). set (v3 := v2 * beta + (1 - beta) * (-1 * -1)).
      assert (V1 : 10000 / 101 <= v1 <= 100) by (unfold v1; lra).
      assert (V2 : 0 <= v2 <= 200 / 101) by (unfold v2; lra).
      assert (V3 : 0 <= v3 <= 10300 / 10201) by (unfold v3; lra).
      rewrite ET.
      pose proof (pow_small (S (3 * E)) ltac:(lia)) as P1. pose proof (pow_smaller (S (S (3 * E))) ltac:(lia)) as P2. pose proof (pow_smaller (S (S (S (3 * E)))) ltac:(lia)) as P3.
      destruct (sqrt_between (9 / 10) (1 - beta ^ S (3 * E)) 1) as [B1 B1']; [lra..|].
      destruct (sqrt_between (99 / 100) (1 - beta ^ S (S (3 * E))) 1) as [B2 B2']; [lra..|].
      destruct (sqrt_between (99 / 100) (1 - beta ^ S (S (S (3 * E)))) 1) as [B3 B3']; [lra..|].
      destruct (sqrt_between (99 / 10) v1 10) as [S1 S1']; [lra..|].
      destruct (sqrt_between 0 v2 (3 / 2)) as [S2 S2']; [lra..|].
      destruct (sqrt_between 0 v3 (11 / 10)) as [S3 S3']; [lra..|].
      set (c1 := sqrt (1 - beta ^ S (3 * E))) in *. set (c2 := sqrt (1 - beta ^ S (S (3 * E)))) in *. set (c3 := sqrt (1 - beta ^ S (S (S (3 * E))))) in *.
      assert (Q1 : c1 * 10 / (sqrt v1 + eps) <= 102 / 100).
      { apply Rmult_le_reg_r with (sqrt v1 + eps); [lra|]. unfold Rdiv at 1. rewrite Rmult_assoc, Rinv_l by lra. lra. }
      assert (Q2 : c2 * -1 / (sqrt v2 + eps) <= - (65 / 100)).
      { apply Rmult_le_reg_r with (sqrt v2 + eps); [lra|]. unfold Rdiv at 1. rewrite Rmult_assoc, Rinv_l by lra. lra. }
      assert (Q3 : c3 * -1 / (sqrt v3 + eps) <= - (88 / 100)).
      { apply Rmult_le_reg_r with (sqrt v3 + eps); [lra|]. unfold Rdiv at 1. rewrite Rmult_assoc, Rinv_l by lra. lra. }
      eexists _, _. split; [reflexivity|]. cbn [a_t a_v]. split; [lia|]. split; [change (0 <= v3 <= 100); lra|].
      rewrite S_INR. apply (Rmult_le_compat_l alpha) in Q1; [|lra]. apply (Rmult_le_compat_l alpha) in Q2; [|lra]. apply (Rmult_le_compat_l alpha) in Q3; [|lra].
      lra.
  Qed.
  Lemma emax_R (a b : R) : emax (N := RN) a b = Rmax a b.
  Proof. unfold emax. cbn. unfold Rmax. destruct (Rle_dec a b); repeat match goal with |- context [Rltb ?p ?q] => destruct (Rltb_spec p q) end; try reflexivity; lra. Qed.
  (** one AMSGrad step with b1 = 0, b2 = 1/101 *)
  Lemma ams_one (s : @adam_st RN) (x g : R) :
    let v := a_v s * beta + (1 - beta) * (g * g) in
    amsgrad_up (N := RN) pow eps 0 beta s x alpha g =
      (@Build_adam_st RN g v (Rmax (a_w s) v) (S (a_t s)), x - alpha * (sqrt (1 - beta ^ S (a_t s)) * g / (sqrt (Rmax (a_w s) v) + eps))).
  Proof.
    cbv zeta. unfold amsgrad_up. change (T RN) with R in *. cbn [n0 n1 nadd nsub nmul ndiv nsqrt RNum].
    replace (a_m s * 0 + (1 - 0) * g) with g by ring.
    replace (1 - 0 ^ S (a_t s)) with 1 by (cbn [pow]; ring).
    rewrite emax_R. f_equal. unfold Rdiv. rewrite Rinv_1. ring.
  Qed.
  Definition ams_ok (x0 : R) (E : nat) (ux : list (@adam_st RN) * list R) : Prop :=
    exists s x, ux = ([s], [x]) /\ a_t s = (3 * E)%nat /\ 0 <= a_v s <= 100 /\ 0 <= a_w s <= 100 /\ x <= x0 - INR E * (alpha / 2).

  Lemma ams_step_list (s : @adam_st RN) (x g : R) :
    sgd_amsgrad (N := RN) pow eps 0 beta [s] [x] alpha [g] =
    ([fst (amsgrad_up (N := RN) pow eps 0 beta s x alpha g)], [snd (amsgrad_up (N := RN) pow eps 0 beta s x alpha g)]).
  Proof. exact (vec_up_cons (N := RN) _ s [] x [] alpha g []). Qed.

  Lemma ams_cyc x0 : forall E, ams_ok x0 E (cyc (sgd_amsgrad (N := RN) pow eps 0 beta) alpha (sgd_adam_init (N := RN) [x0]) [x0] (3 * E)).
  Proof.
    induction E as [|E IH].
    - exists (@adam_init RN), x0. split; [reflexivity|]. cbn. split; [reflexivity|]. repeat split; lra.
    - replace (3 * S E)%nat with (S (S (S (3 * E)))) by lia. rewrite !cyc_S. destruct IH as (s & x & -> & ET & EV & EW & EX).
      destruct (mod3 E) as (-> & -> & ->). cbn [fst snd coef].
      rewrite ams_step_list, ams_one. cbn [fst snd].
      rewrite ams_step_list, ams_one. cbn [fst snd a_v a_t a_w].
      rewrite ams_step_list, ams_one. cbn [fst snd a_v a_t a_w].
      change (T RN) with R in *.
      set (v1 := a_v s * beta + (1 - beta) * (10 * 10)). set (v2 := v1 * beta + (1 - beta) * (-1 * -1)). set (v3 := v2 * beta + (1 - beta) * (-1 * -1)).
      assert (V1 : 10000 / 101 <= v1 <= 100) by (unfold v1; lra).
      assert (V2 : 0 <= v2 <= 200 / 101) by (unfold v2; lra).
      assert (V3 : 0 <= v3 <= 10300 / 10201) by (unfold v3; lra).
      set (w1 := Rmax (a_w s) v1). assert (W1 : 10000 / 101 <= w1 <= 100) by (unfold w1, Rmax; destruct (Rle_dec (a_w s) v1); lra).
      set (w2 := Rmax w1 v2). assert (W2 : 10000 / 101 <= w2 <= 100) by (unfold w2, Rmax; destruct (Rle_dec w1 v2); lra).
      set (w3 := Rmax w2 v3). assert (W3 : 10000 / 101 <= w3 <= 100) by (unfold w3, Rmax; destruct (Rle_dec w2 v3); lra).
      rewrite ET.
      pose proof (pow_small (S (3 * E)) ltac:(lia)) as P1. pose proof (pow_smaller (S (S (3 * E))) ltac:(lia)) as P2. pose proof (pow_smaller (S (S (S (3 * E)))) ltac:(lia)) as P3.
      destruct (sqrt_between (9 / 10) (1 - beta ^ S (3 * E)) 1) as [B1 B1']; [lra..|].
      destruct (sqrt_between (99 / 100) (1 - beta ^ S (S (3 * E))) 1) as [B2 B2']; [lra..|].
      destruct (sqrt_between (99 / 100) (1 - beta ^ S (S (S (3 * E)))) 1) as [B3 B3']; [lra..|].
      destruct (sqrt_between (99 / 10) w1 10) as [S1 S1']; [lra..|].
      destruct (sqrt_between (99 / 10) w2 10) as [S2 S2']; [lra..|].
      destruct (sqrt_between (99 / 10) w3 10) as [S3 S3']; [lra..|].
      set (c1 := sqrt (1 - beta ^ S (3 * E))) in *. set (c2 := sqrt (1 - beta ^ S (S (3 * E)))) in *. set (c3 := sqrt (1 - beta ^ S (S (S (3 * E))))) in *.
      assert (Q1 : 85 / 100 <= c1 * 10 / (sqrt w1 + eps)).
      { apply Rmult_le_reg_r with (sqrt w1 + eps); [lra|]. unfold Rdiv at 2. rewrite Rmult_assoc, Rinv_l by lra. lra. }
      assert (Q2 : - (15 / 100) <= c2 * -1 / (sqrt w2 + eps)).
      { apply Rmult_le_reg_r with (sqrt w2 + eps); [lra|]. unfold Rdiv at 2. rewrite Rmult_assoc, Rinv_l by lra. lra. }
      assert (Q3 : - (15 / 100) <= c3 * -1 / (sqrt w3 + eps)).
      { apply Rmult_le_reg_r with (sqrt w3 + eps); [lra|]. unfold Rdiv at 2. rewrite Rmult_assoc, Rinv_l by lra. lra. }
      eexists _, _. split; [reflexivity|]. cbn [a_t a_v a_w]. split; [lia|]. split; [change (0 <= v3 <= 100); lra|]. split; [change (0 <= w3 <= 100); lra|].
      rewrite S_INR. apply (Rmult_le_compat_l alpha) in Q1; [|lra]. apply (Rmult_le_compat_l alpha) in Q2; [|lra]. apply (Rmult_le_compat_l alpha) in Q3; [|lra].
      lra.
  Qed.
End Drift.

Lemma lin3_total mx (x : R) : fst (sf_evalgrad (lin3 mx) 0 [x] 0 3) = 8 * x.
Proof. cbn. lra. Qed.
Theorem adam_drifts (mx alpha eps x0 : R) (cb : Callbacks (RNum mx) (list R) (list R)) fuel E
  (c : Cfg (RNum mx) (list R) (list R) (list (@adam_st (RNum mx))) unit) r :
  0 < alpha -> 0 < eps <= 1 / 100 ->
  (forall h g, cb_grad cb h g = g) -> (forall h, cb_stop cb h = false) ->
  c_batch c = 1%nat -> c_max c = (3 * S E)%nat -> c_tol c = 0 ->
  c_up c = sgd_adam (N := RNum mx) pow eps 0 (1 / 101) -> c_dp c = sgd_no_decay (N := RNum mx) ->
  optimize_with c (lin3 mx) cb fuel (sgd_adam_init (N := RNum mx) [x0]) tt alpha [x0] = Return r ->
  fst (sf_evalgrad (lin3 mx) 0 (r_x r) 0 3) >= 8 * x0 + INR (S E) * (4 * alpha).
Proof.
  intros A EP CB CS HB HM HT EU ED RUN.
  pose proof (cyc_run mx _ alpha cb CB c _ _ fuel r E CS HB HM HT EU ED RUN) as Q.
  destruct (adam_cyc mx alpha eps A EP x0 (S E)) as (s & x & EQ & _ & _ & B). rewrite EQ in Q. injection Q as _ ->.
  rewrite lin3_total. lra.
Qed.
Theorem amsgrad_goes_down (mx alpha eps x0 : R) (cb : Callbacks (RNum mx) (list R) (list R)) fuel E
  (c : Cfg (RNum mx) (list R) (list R) (list (@adam_st (RNum mx))) unit) r :
  0 < alpha -> 0 < eps <= 1 / 100 ->
  (forall h g, cb_grad cb h g = g) -> (forall h, cb_stop cb h = false) ->
  c_batch c = 1%nat -> c_max c = (3 * S E)%nat -> c_tol c = 0 ->
  c_up c = sgd_amsgrad (N := RNum mx) pow eps 0 (1 / 101) -> c_dp c = sgd_no_decay (N := RNum mx) ->
  optimize_with c (lin3 mx) cb fuel (sgd_adam_init (N := RNum mx) [x0]) tt alpha [x0] = Return r ->
  fst (sf_evalgrad (lin3 mx) 0 (r_x r) 0 3) <= 8 * x0 - INR (S E) * (4 * alpha).
Proof.
  intros A EP CB CS HB HM HT EU ED RUN.
  pose proof (cyc_run mx _ alpha cb CB c _ _ fuel r E CS HB HM HT EU ED RUN) as Q.
  destruct (ams_cyc mx alpha eps A EP x0 (S E)) as (s & x & EQ & _ & _ & _ & B). rewrite EQ in Q. injection Q as _ ->.
  rewrite lin3_total. lra.
Qed.
