(** What QHAdam's settings are, and full-batch SGD. *)
From Coq Require Import List Arith Bool Lia Reals Lra Permutation.
From Verif.Base Require Import Num Vec Loop Size Instances.
From Verif.Model Require Import Common Sgd Updates SgdPolicies GradientDescent.
From Verif.Spec Require Import SameSpec.
From Verif.Proof Require Import SameRun.
Import ListNotations.
Local Open Scope R_scope.

Section Qh.
  Variable mx : R.
  Notation RN := (RNum mx).
  Lemma qhadam_scaled (eps b1 b2 : R) (s : @adam_st RN) (x h g : R) : 0 < eps -> 0 < b2 < 1 ->
    snd (qhadam_up (N := RN) rpow eps b1 b2 1 1 s x h g) = snd (adam_up (N := RN) rpow (eps * sqrt (1 - b2 ^ S (a_t s))) b1 b2 s x h g).
  Proof.
    intros E B. cbn. change (T RN) with R in *. pose proof (pow_lt1 b2 (a_t s) B) as P. unfold rpow. cbn [pow] in *.
    set (v := a_v s * b2 + (1 - b2) * (g * g)). set (m := a_m s * b1 + (1 - b1) * g).
    set (c1 := 1 - b1 * b1 ^ a_t s). set (c2 := 1 - b2 * b2 ^ a_t s) in *.
    replace ((1 - 1) * (g * g) + 1 * (v / c2)) with (v / c2) by ring. rewrite sqrt_div_alt by exact P.
    assert (S2 : 0 < sqrt c2) by (apply sqrt_lt_R0; exact P). pose proof (sqrt_pos v) as SV.
    assert (E2 : 0 < eps * sqrt c2) by (apply Rmult_lt_0_compat; assumption).
    replace (sqrt v / sqrt c2 + eps) with ((sqrt v + eps * sqrt c2) / sqrt c2) by (field; lra).
    unfold Rdiv. rewrite Rinv_mult, Rinv_inv. ring.
  Qed.
  Lemma qhadam_rms (eps b1 b2 : R) (s : @adam_st RN) (x h g : R) : 0 < eps -> 0 < b2 < 1 ->
    snd (qhadam_up (N := RN) rpow eps b1 b2 0 1 s x h g)
    = snd (rmsprop_up (N := RN) (eps * sqrt (1 - b2 ^ S (a_t s))) b2 (a_v s) x (h * sqrt (1 - b2 ^ S (a_t s))) g).
  Proof.
    intros E B. cbn. change (T RN) with R in *. pose proof (pow_lt1 b2 (a_t s) B) as P. unfold rpow. cbn [pow] in *.
    set (v := a_v s * b2 + (1 - b2) * (g * g)). set (c2 := 1 - b2 * b2 ^ a_t s) in *.
    replace ((1 - 1) * (g * g) + 1 * (v / c2)) with (v / c2) by ring. rewrite sqrt_div_alt by exact P.
    assert (S2 : 0 < sqrt c2) by (apply sqrt_lt_R0; exact P). pose proof (sqrt_pos v) as SV.
    assert (E2 : 0 < eps * sqrt c2) by (apply Rmult_lt_0_compat; assumption).
    replace (sqrt v / sqrt c2 + eps) with ((sqrt v + eps * sqrt c2) / sqrt c2) by (field; lra).
    unfold Rdiv. rewrite Rinv_mult, Rinv_inv. ring.
  Qed.

  (** one step of any policy on the ramp *)
  Lemma one_step {S : Type} (up : S -> R -> R -> R -> S * R) (s0 : S) (h : R) (tol : RN) :
    exists r, optimize_with (N := RN) (sgd_with (N := RN) (vec_up (N := RN) up) 1 1 tol false false) ramp mute 2 [s0] tt h [0] = Return r /\ r_x r = [snd (up s0 0 h 1)].
  Proof.
    unfold optimize_with. cbn. destruct (up s0 0 h 1) as [s1 x1]. cbn. eexists. split; [reflexivity|reflexivity].
  Qed.
  Lemma first_qhadam (eps b1 b2 v1 h : R) : 0 < b1 < 1 -> 0 < b2 < 1 ->
    snd (qhadam_up (N := RN) rpow eps b1 b2 v1 1 adam_init 0 h 1) = - (h / (1 + eps)).
  Proof.
    intros B1 B2. cbn. unfold rpow. cbn [pow]. rewrite !Rmult_1_r, !Rmult_0_l, !Rplus_0_l.
    assert (D2 : (1 - b2) / (1 - b2) = 1) by (field; lra). assert (D1 : (1 - b1) / (1 - b1) = 1) by (field; lra). rewrite D1, D2.
    replace (1 - 1 + 1 * 1) with 1 by ring. rewrite sqrt_1. replace (1 - v1 + v1 * 1) with 1 by ring. unfold Rdiv. ring.
  Qed.
  Lemma first_adam (eps b1 b2 h : R) : 0 < b1 < 1 -> 0 < b2 < 1 ->
    snd (adam_up (N := RN) rpow eps b1 b2 adam_init 0 h 1) = - (h * sqrt (1 - b2) / (sqrt (1 - b2) + eps)).
  Proof.
    intros B1 B2. cbn. unfold rpow. cbn [pow]. rewrite !Rmult_1_r, !Rmult_0_l, !Rplus_0_l.
    unfold Rdiv. rewrite (Rmult_assoc (h * sqrt (1 - b2))), Rinv_l by lra. ring.
  Qed.
  Lemma first_rms (eps b2 h : R) : snd (rmsprop_up (N := RN) eps b2 (0 : R) 0 h 1) = - (h / (sqrt (1 - b2) + eps)).
  Proof. cbn. rewrite !Rmult_1_r, Rmult_0_l, Rplus_0_l. unfold Rdiv. ring. Qed.
  Lemma first_nadam (b1 b2 sd h : R) : 0 < b1 < 1 -> 0 < b2 < 1 -> 0 <= sd -> 0 < h ->
    snd (nadam_up (N := RN) rpow Rpower 0 b1 b2 sd nadam_init 0 h 1) < - h.
  Proof.
    intros B1 B2 SD H. cbn. unfold nadam_beta. cbn.
    assert (Q : forall t, 0 <= t -> 0 < Rpower (96 / 100) t <= 1).
    { intros t T0. unfold Rpower. split; [apply exp_pos|]. rewrite <- exp_0. assert (L0 : ln (96 / 100) < 0) by (rewrite <- ln_1; apply ln_increasing; lra).
      assert (t * ln (96 / 100) <= 0) by nra. destruct H0 as [H0|H0]; [left; apply exp_increasing; exact H0|rewrite H0; lra]. }
    pose proof (Q (1 * sd) ltac:(lra)) as Q1. pose proof (Q (2 * sd) ltac:(lra)) as Q2.
    set (p1 := Rpower (96 / 100) (1 * sd)) in *. set (p2 := Rpower (96 / 100) (2 * sd)) in *.
    unfold rpow. cbn [pow]. rewrite !Rmult_1_r, !Rmult_0_l, !Rplus_0_l, !Rmult_1_l.
    set (t1 := b1 * (1 - 1 / 2 * p1)). set (t2 := b1 * (1 - 1 / 2 * p2)).
    assert (T1 : 0 < t1 < 1) by (unfold t1; split; nra). assert (T2 : 0 < t2 < 1) by (unfold t2; split; nra).
    assert (S0 : 0 < sqrt (1 - b2)) by (apply sqrt_lt_R0; lra). rewrite Rplus_0_r.
    replace ((1 - t1) / (1 - t1)) with 1 by (field; lra).
    assert (D : 0 < t2 / (1 - t1 * t2) * (1 - b1)).
    { apply Rmult_lt_0_compat; [|lra]. apply Rdiv_lt_0_compat; [lra|]. nra. }
    set (dl := t2 / (1 - t1 * t2) * (1 - b1)) in *.
    replace (0 - h * (1 + dl) * sqrt (1 - b2) / sqrt (1 - b2)) with (- (h * (1 + dl))) by (field; lra). nra.
  Qed.

  Lemma adam_differs (eps b1 b2 h : R) : 0 < eps -> 0 < b1 < 1 -> 0 < b2 < 1 -> 0 < h ->
    - (h / (1 + eps)) <> - (h * sqrt (1 - b2) / (sqrt (1 - b2) + eps)).
  Proof.
    intros E B1 B2 H X. assert (S0 : 0 < sqrt (1 - b2)) by (apply sqrt_lt_R0; lra).
    assert (S1 : sqrt (1 - b2) < 1) by (rewrite <- sqrt_1 at 2; apply sqrt_lt_1_alt; lra). set (q := sqrt (1 - b2)) in *.
    assert (X' : h / (1 + eps) * ((1 + eps) * (q + eps)) = h * q / (q + eps) * ((1 + eps) * (q + eps))) by (replace (h / (1 + eps)) with (h * q / (q + eps)) by lra; reflexivity).
    replace (h / (1 + eps) * ((1 + eps) * (q + eps))) with (h * (q + eps)) in X' by (field; lra).
    replace (h * q / (q + eps) * ((1 + eps) * (q + eps))) with (h * q * (1 + eps)) in X' by (field; lra).
    assert (h * (eps * (1 - q)) = 0) by lra. assert (0 < eps * (1 - q)) by (apply Rmult_lt_0_compat; lra).
    assert (0 < h * (eps * (1 - q))) by (apply Rmult_lt_0_compat; assumption). lra.
  Qed.
  Lemma rms_differs (b2 h : R) : 0 < b2 < 1 -> 0 < h -> - (h / (1 + 0)) <> - (h / (sqrt (1 - b2) + 0)).
  Proof.
    intros B2 H X. assert (S0 : 0 < sqrt (1 - b2)) by (apply sqrt_lt_R0; lra).
    assert (S1 : sqrt (1 - b2) < 1) by (rewrite <- sqrt_1 at 2; apply sqrt_lt_1_alt; lra). set (q := sqrt (1 - b2)) in *.
    rewrite !Rplus_0_r in X. assert (X' : h / 1 * q = h / q * q) by (replace (h / 1) with (h / q) by lra; reflexivity).
    replace (h / q * q) with h in X' by (field; lra). assert (h * (1 - q) = 0) by lra.
    assert (0 < h * (1 - q)) by (apply Rmult_lt_0_compat; lra). lra.
  Qed.
  Lemma differ {S S' : Type} (up : S -> R -> R -> R -> S * R) (up' : S' -> R -> R -> R -> S' * R) s0 s0' (h : R) (tol : RN) :
    snd (up' s0' 0 h 1) <> snd (up s0 0 h 1) ->
    ~ same_run (optimize_with (N := RN) (sgd_with (N := RN) (vec_up (N := RN) up) 1 1 tol false false) ramp mute 2 [s0] tt h [0])
               (optimize_with (N := RN) (sgd_with (N := RN) (vec_up (N := RN) up') 1 1 tol false false) ramp mute 2 [s0'] tt h [0]).
  Proof.
    intros D. destruct (one_step up s0 h tol) as (r & E & X). destruct (one_step up' s0' h tol) as (r' & E' & X'). rewrite E, E'. cbn.
    intros (_ & Z & _). pose proof (eq_trans (eq_sym X') (eq_trans Z X)) as Y. injection Y as Y. exact (D Y).
  Qed.
  Lemma qhadam_not_adam (eps b1 b2 h : R) (tol : RN) : 0 < eps -> 0 < b1 < 1 -> 0 < b2 < 1 -> 0 < h ->
    ~ same_run (optimize_with (N := RN) (sgd_with (N := RN) (vec_up (adam_up (N := RN) rpow eps b1 b2)) 1 1 tol false false) ramp mute 2 [adam_init] tt h [0])
               (optimize_with (N := RN) (sgd_with (N := RN) (vec_up (qhadam_up (N := RN) rpow eps b1 b2 1 1)) 1 1 tol false false) ramp mute 2 [adam_init] tt h [0]).
  Proof. intros E B1 B2 H. apply differ. rewrite first_qhadam, first_adam by assumption. apply (adam_differs eps b1 b2 h); assumption. Qed.
  Lemma qhadam_not_rms (b1 b2 h : R) (tol : RN) : 0 < b1 < 1 -> 0 < b2 < 1 -> 0 < h ->
    ~ same_run (optimize_with (N := RN) (sgd_with (N := RN) (vec_up (rmsprop_up (N := RN) 0 b2)) 1 1 tol false false) ramp mute 2 [0 : R] tt h [0])
               (optimize_with (N := RN) (sgd_with (N := RN) (vec_up (qhadam_up (N := RN) rpow 0 b1 b2 0 1)) 1 1 tol false false) ramp mute 2 [adam_init] tt h [0]).
  Proof. intros B1 B2 H. apply differ. rewrite first_qhadam by assumption. rewrite first_rms. apply (rms_differs b2 h); assumption. Qed.
  Lemma qhadam_not_nadam (b1 b2 sd h : R) (tol : RN) : 0 < b1 < 1 -> 0 < b2 < 1 -> 0 <= sd -> 0 < h ->
    ~ same_run (optimize_with (N := RN) (sgd_with (N := RN) (vec_up (nadam_up (N := RN) rpow Rpower 0 b1 b2 sd)) 1 1 tol false false) ramp mute 2 [nadam_init] tt h [0])
               (optimize_with (N := RN) (sgd_with (N := RN) (vec_up (qhadam_up (N := RN) rpow 0 b1 b2 b1 1)) 1 1 tol false false) ramp mute 2 [adam_init] tt h [0]).
  Proof.
    intros B1 B2 SD H. apply differ. rewrite first_qhadam by assumption. pose proof (first_nadam b1 b2 sd h B1 B2 SD H) as F. intros Z.
    apply (Rlt_not_eq _ _ F). refine (eq_trans (eq_sym Z) _). change (IZR 0) with 0. rewrite Rplus_0_r. unfold Rdiv. rewrite Rinv_1. ring.
  Qed.
End Qh.

(** ** SGD with one batch of everything is gradient descent *)
Section Full.
  Variable mx : R.
  Notation RN := (RNum mx).
  Variables (f : SepFun RN (list RN) (list RN)) (F : list RN -> RN * list RN) (batch : nat) (shuffle exact : bool) (h : RN).
  Notation n := (sf_num f).
  Hypothesis Hn : (0 < n)%nat.
  Hypothesis Hb : (n <= batch)%nat.
  Hypothesis HF : forall s x, sf_evalgrad f s x 0 n = F x.
  Definition go (x : list RN) : list RN := vsub x (vscale h (snd (F x))).
  Fixpoint orbit (k : nat) (x : list RN) : list (list RN) := match k with O => [] | S k' => go x :: orbit k' (go x) end.
  Fixpoint reach (k : nat) (x : list RN) : list RN := match k with O => x | S k' => reach k' (go x) end.
  Notation cfg k := (sgd_with sgd_vanilla batch (k * n) (0 : RN) shuffle exact).

  Lemma vanilla_go : forall (x : list RN) g, sgd_vanilla (N := RN) (map (fun _ => tt) x) x h g
    = (map (fun _ => tt) (vsub (N := RN) x (vscale (N := RN) h g)), vsub (N := RN) x (vscale (N := RN) h g)).
  Proof.
    unfold vsub, vscale, sgd_vanilla. induction x as [|a x IH]; intros [|b g]; cbn; try reflexivity. rewrite IH. cbn. reflexivity.
  Qed.
  Lemma Rltb_abs0 (a : R) : Rltb (Rabs a) 0 = false.
  Proof. destruct (Rltb_spec (Rabs a) 0) as [H|H]; [pose proof (Rabs_pos a); lra|reflexivity]. Qed.

  Definition at_round (k j : nat) (x : list RN) (s : st RN (list RN) (list RN) (list unit) unit) : Prop :=
    s_i s = (j * n)%nat /\ ((j < k)%nat -> s_cf s = 0%nat) /\ s_term s = false /\ s_x s = x /\ s_u s = map (fun _ => tt) x /\ s_step s = h.
  Lemma body_round (k j : nat) x s : (0 < k)%nat -> (j < k)%nat -> at_round k j x s ->
    exists s', body (cfg k) f mute s = inl s' /\ at_round k (S j) (go x) s' /\
      points (rev (s_tr s')) = points (rev (s_tr s)) ++ [go x].
  Proof.
    intros K J (Ei & Ec & Et & Ex & Eu & Es). specialize (Ec J). unfold body.
    assert (AM : actual_max (cfg k) = (k * n)%nat) by (unfold actual_max; cbn [c_max sgd_with]; destruct (Nat.eqb_spec (k * n) 0); [nia|reflexivity]).
    rewrite AM, Ei, Et, Ec, Ex, Es, Eu. assert (LT : (j * n <? k * n)%nat = true) by (apply Nat.ltb_lt; nia). rewrite LT. cbn [negb andb].
    assert (EB : effective_batch (cfg k) f s = n) by (unfold effective_batch; rewrite AM, Ei, Ec; cbn [c_batch sgd_with]; nia). rewrite EB, HF.
    destruct (F x) as [v g] eqn:FX. cbn [cb_grad mute c_up sgd_with]. rewrite vanilla_go.
    assert (G0 : vsub (N := RN) x (vscale (N := RN) h g) = go x) by (unfold go; rewrite FX; reflexivity). rewrite G0.
    cbn [c_dp sgd_with]. destruct (Nat.eqb_spec n 0) as [?|_]; [lia|]. cbn [s_cf]. rewrite Nat.add_0_l, Nat.mod_same by lia. cbn [Nat.eqb].
    unfold epoch_end. cbv zeta. cbn [s_overall s_last s_x s_i s_cf s_term s_tr c_tol sgd_with nisnan nisinf orb RNum nlt nabs nsub].
    rewrite Rltb_abs0. eexists. split; [reflexivity|]. split.
    - unfold at_round. cbn [s_i s_cf s_term s_x s_u s_step]. rewrite AM. split; [lia|]. split; [|auto]. intros J'. destruct (Nat.eqb_spec (j * n + n) (k * n)); [nia|reflexivity].
    - cbn [s_tr]. destruct (c_shuffle (cfg k)); cbn [rev]; unfold points; rewrite ?flat_map_app; cbn; rewrite ?app_nil_r; reflexivity.
  Qed.
  Lemma loop_rounds (k : nat) : (0 < k)%nat -> forall m j x s, (j + m = k)%nat -> at_round k j x s -> forall fuel, (m < fuel)%nat ->
    exists s', loop (body (cfg k) f mute) fuel s = inr (Xloop s') /\ s_x s' = reach m x /\
      points (rev (s_tr s')) = points (rev (s_tr s)) ++ orbit m x.
  Proof.
    intros K. induction m as [|m IH]; intros j x s JM A fuel FU; (destruct fuel as [|fuel]; [lia|]); cbn [loop].
    - assert (j = k) by lia. subst j. destruct A as (Ei & _ & Et & Ex & _). unfold body.
      assert (AM : actual_max (cfg k) = (k * n)%nat) by (unfold actual_max; cbn [c_max sgd_with]; destruct (Nat.eqb_spec (k * n) 0); [nia|reflexivity]).
      rewrite AM, Ei, Nat.ltb_irrefl. cbn. exists s. rewrite app_nil_r. auto.
    - destruct (body_round k j x s K ltac:(lia) A) as (s' & B & A' & P). rewrite B.
      destruct (IH (S j) (go x) s' ltac:(lia) A' fuel ltac:(lia)) as (s2 & L & X2 & P2). exists s2. split; [exact L|]. split; [exact X2|].
      rewrite P2, P, <- app_assoc. reflexivity.
  Qed.
  Lemma exact_total : forall fuel (shuf : nat) (x : list RN) i acc tr, (n < fuel)%nat \/ (n <= i)%nat -> (0 < fuel)%nat ->
    forall k, exists v t, exact_loop (cfg k) f fuel shuf x i acc tr = Some (v, t) /\ points (rev t) = points (rev tr).
  Proof.
    intros [|fuel] shuf x i acc tr H FU k; [lia|]. cbn [exact_loop]. destruct (Nat.ltb_spec i n); [|eauto].
    destruct H as [H|H]; [|lia]. destruct fuel as [|fuel]; [lia|]. cbn [exact_loop c_batch sgd_with].
    destruct (Nat.ltb_spec (i + batch) n); [lia|]. eexists _, _. split; [reflexivity|]. cbn [rev]. unfold points. rewrite flat_map_app. cbn. apply app_nil_r.
  Qed.
  Lemma sgd_orbit (k fuel : nat) x : (0 < k)%nat -> (k < fuel)%nat -> (n < fuel)%nat ->
    exists r, optimize_with (cfg k) f mute fuel (sgd_vanilla_init x) tt h x = Return r /\ r_x r = reach k x /\ points (r_trace r) = orbit k x.
  Proof.
    intros K FU FN. unfold optimize_with.
    destruct (loop_rounds k K k 0 x (init mute x (sgd_vanilla_init x) tt h) ltac:(lia) ltac:(repeat split) fuel FU) as (s & L & X & P). rewrite L.
    destruct (exact_total fuel (s_shuf s) (s_x s) 0 n0 (s_tr s) ltac:(left; lia) ltac:(lia) k) as (v & t & E & PT). rewrite E.
    destruct (c_exact (cfg k)).
    -
      eexists. split; [reflexivity|]. cbn [finish r_x r_trace]. split; [exact X|]. cbn [rev]. unfold points in *. rewrite flat_map_app. cbn [flat_map].
      rewrite app_nil_r. rewrite PT, P. reflexivity.
    - eexists. split; [reflexivity|]. cbn [finish r_x r_trace]. split; [exact X|]. cbn [rev]. unfold points in *. rewrite flat_map_app. cbn [flat_map].
      rewrite app_nil_r. rewrite P. reflexivity.
  Qed.

  Lemma gd_rounds (k : nat) : forall m i (ov last : RN) x tr fuel, (0 < i)%nat -> (i + m = S k)%nat -> (m < fuel)%nat ->
    exists r, gd_loop h (S k) (0 : RN) F quiet fuel i ov last false x tr = Some r /\ o_x r = reach m x /\
      gd_points (o_tr r) = gd_points (rev tr) ++ orbit m x.
  Proof.
    induction m as [|m IH]; intros i ov last x tr fuel I0 IM FU.
    - exists (gd_done ov x tr). assert (C : negb (negb (i =? bound (S k))%nat && negb false) = true).
      { unfold bound. replace i with (S k) by lia. rewrite Nat.eqb_refl. reflexivity. }
      destruct fuel as [|fuel]; [lia|]. cbn [gd_loop]. rewrite C. split; [reflexivity|]. split; [reflexivity|]. cbn [gd_done o_tr rev]. unfold gd_points.
      rewrite flat_map_app. reflexivity.
    - destruct fuel as [|fuel]; [lia|]. cbn [gd_loop]. assert (C : negb (negb (i =? bound (S k))%nat && negb false) = false).
      { unfold bound. destruct (Nat.eqb_spec i (S k)); [lia|reflexivity]. }
      rewrite C. destruct (F x) as [v g] eqn:FX. cbn [cs_grad cs_stop quiet nisnan nisinf orb RNum nlt nabs nsub]. rewrite Rltb_abs0.
      destruct (IH (S i) v v (go x) (St (go x) :: EvG x v g g :: tr) fuel ltac:(lia) ltac:(lia) ltac:(lia)) as (r & E & X & P).
      exists r. assert (G0 : vsub (N := RN) x (vscale (N := RN) h g) = go x) by (unfold go; rewrite FX; reflexivity).
      rewrite G0. split; [exact E|]. split; [exact X|]. rewrite P. cbn [rev]. unfold gd_points. rewrite !flat_map_app. cbn. rewrite app_nil_r, <- app_assoc. reflexivity.
  Qed.
  Theorem full_batch_sgd (k fuel : nat) x : (0 < k)%nat -> (k < fuel)%nat -> (n < fuel)%nat ->
    exists r r', optimize_with (cfg k) f mute fuel (sgd_vanilla_init x) tt h x = Return r /\
      gd h (S k) (0 : RN) F quiet fuel x = Some r' /\
      r_x r = o_x r' /\ points (r_trace r) = gd_points (o_tr r') /\ length (points (r_trace r)) = k.
  Proof.
    intros K FU FN. destruct (sgd_orbit k fuel x K FU FN) as (r & E & X & P).
    destruct (gd_rounds k k 1 nmax nmax x [Begin x] fuel ltac:(lia) ltac:(lia) FU) as (r' & E' & X' & P').
    exists r, r'. split; [exact E|]. split; [exact E'|]. split; [congruence|]. split; [rewrite P, P'; reflexivity|].
    rewrite P. clear. revert x. induction k as [|k IH]; intros x; cbn; [reflexivity|]. rewrite IH. reflexivity.
  Qed.
End Full.
