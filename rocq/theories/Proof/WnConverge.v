(** WNGrad on a smooth function that is bounded below. *)
From Coq Require Import List Arith Bool Reals Lra Lia.
From Verif.Base Require Import Num Vec Instances.
From Verif.Model Require Import Sgd Updates SgdPolicies.
From Verif.Spec Require Import SgdSpec Gradient FWSpec ConvergeSpec RegretSpec WnSpec.
From Verif.Proof Require Import SgdMore SmoothProof RegretProof GDConverge.
Import ListNotations.
Local Open Scope R_scope.

Section Wn.
  Variable mx : R.
  Notation RN := (RNum mx).
  Variables (n : nat) (L low : R) (f : list R -> R) (grad : list R -> list R).
  Hypothesis SM : smooth_on (space n) L f grad.
  Hypothesis HL : 0 < L.
  Hypothesis LOW : forall x, length x = n -> low <= f x.

  Definition go (t : R) (x : list R) : list R := vsub (N := RN) x (vscale (N := RN) t (grad x)).
  Lemma go_length t x : length x = n -> length (go t x) = n.
  Proof.
    intros H. unfold go, vsub, vscale. rewrite map2_length, map_length. change (T RN) with R.
    destruct (proj1 SM x H) as [E _]. rewrite E, H. apply Nat.min_id.
  Qed.
  Lemma go_value t x : length x = n -> f (go t x) <= f x - t * sqn (grad x) + L / 2 * (t * t * sqn (grad x)).
  Proof.
    intros H. pose proof (go_length t x H) as H'. destruct (proj1 SM x H) as [E _].
    pose proof (descent_lemma n (space n) f grad (space_convex n) L x (go t x) (Rlt_le _ _ HL) SM H H') as D.
    assert (D1 : dotR (grad x) (go t x) = dotR (grad x) x - t * sqn (grad x)) by exact (gstep_dot mx t x (grad x) (grad x) E).
    assert (D2 : sqdist (go t x) x = t * t * sqn (grad x)).
    { etransitivity; [exact (gstep_dist mx t x (grad x) x E eq_refl)|]. rewrite sqdist_0. lra. }
    rewrite D1, D2 in D. lra.
  Qed.
  (** a smooth function bounded below has a small gradient where it is low *)
  Lemma grad_small x : length x = n -> sqn (grad x) <= 2 * L * (f x - low).
  Proof.
    intros H. pose proof (go_value (/ L) x H) as V. pose proof (LOW (go (/ L) x) (go_length _ x H)) as W.
    assert (Q : L / 2 * (/ L * / L * sqn (grad x)) = / L * sqn (grad x) / 2) by (field; lra). rewrite Q in V.
    assert (P : / L * sqn (grad x) <= 2 * (f x - low)) by lra.
    apply (Rmult_le_compat_l L) in P; [|lra]. rewrite <- Rmult_assoc, Rinv_r, Rmult_1_l in P by lra. lra.
  Qed.

  Variables (a : R) (x0 : list R).
  Hypothesis HA : 0 < a.
  Hypothesis X0 : length x0 = n.
  Let gap := f x0 - low.
  Let H := wn_height L a gap.
  Let M := wn_cap L a gap.
  Let rho := 1 + 2 * H / L.
  Lemma gap_pos : 0 <= gap. Proof. unfold gap. pose proof (LOW x0 X0). lra. Qed.
  Lemma H_gap : gap <= H.
  Proof. unfold H, wn_height. assert (0 < L * L / (2 * a)) by (apply Rdiv_lt_0_compat; [apply Rmult_lt_0_compat; exact HL|lra]). lra. Qed.
  Lemma rho_1 : 1 <= rho.
  Proof. unfold rho. pose proof gap_pos. pose proof H_gap. assert (0 <= 2 * H / L) by (apply Rmult_le_pos; [lra|apply Rlt_le, Rinv_0_lt_compat, HL]). lra. Qed.
  Lemma jump_pos : 0 <= 2 * L * H / a.
  Proof.
    pose proof gap_pos. pose proof H_gap. apply Rmult_le_pos; [|apply Rlt_le, Rinv_0_lt_compat, HA].
    apply Rmult_le_pos; lra.
  Qed.
  Lemma M_eq : M = a + L + 2 * L * H / a + 2 * rho * H. Proof. reflexivity. Qed.

  (** what holds before every step: either B has not reached L yet and the objective has risen by a
      bounded amount, or it has and the two together do not grow any more *)
  Definition early (b : R) (x : list R) : Prop := b < L /\ f x - low <= gap + L / 2 * ((b - a) / a).
  Definition late (b : R) (x : list R) : Prop := L <= b /\ f x - low <= H /\ b + 2 * rho * (f x - low) <= M.
  Definition winv (b : R) (x : list R) : Prop := length x = n /\ a <= b /\ (early b x \/ late b x).
  Lemma early_H b x : early b x -> f x - low <= H.
  Proof.
    intros [B V]. unfold H, wn_height.
    assert (L / 2 * ((b - a) / a) <= L * L / (2 * a)); [|lra].
    replace (L * L / (2 * a)) with (L / 2 * (L / a)) by (field; lra).
    apply Rmult_le_compat_l; [lra|]. apply Rmult_le_compat_r; [apply Rlt_le, Rinv_0_lt_compat, HA|lra].
  Qed.
  Lemma winv_start : winv a x0.
  Proof.
    split; [exact X0|]. split; [lra|]. destruct (Rlt_le_dec a L) as [C|C].
    - left. split; [exact C|]. fold gap. replace ((a - a) / a) with 0 by (field; lra). lra.
    - right. split; [exact C|]. fold gap. split; [apply H_gap|]. rewrite M_eq. pose proof jump_pos. pose proof H_gap. pose proof rho_1.
      assert (rho * gap <= rho * H) by (apply Rmult_le_compat_l; lra). lra.
  Qed.
  Lemma winv_cap b x : winv b x -> b <= M.
  Proof.
    intros (E & A & [[B V]|(B & V & P)]).
    - rewrite M_eq. pose proof jump_pos. pose proof rho_1. pose proof gap_pos. pose proof H_gap.
      assert (0 <= rho * H) by (apply Rmult_le_pos; lra). lra.
    - pose proof rho_1. pose proof (LOW x E). assert (0 <= rho * (f x - low)) by (apply Rmult_le_pos; lra). lra.
  Qed.
  Lemma winv_height b x : winv b x -> f x - low <= H.
  Proof. intros (_ & _ & [I|(_ & I & _)]); [now apply early_H with b|exact I]. Qed.
  Lemma winv_step b x : winv b x -> let b' := b + sqn (grad x) / b in winv b' (go (/ b') x) /\ sqn (grad x) <= M * (b' - b).
  Proof.
    intros I b'. pose proof (winv_cap b x I) as CAP. pose proof (winv_height b x I) as HT. destruct I as (E & A & I).
    set (s := sqn (grad x)) in *. pose proof (sqn_nonneg (grad x)) as S0. fold s in S0.
    assert (B0 : 0 < b) by lra. assert (SB : 0 <= s / b) by (apply Rmult_le_pos; [exact S0|apply Rlt_le, Rinv_0_lt_compat, B0]).
    assert (B' : b <= b') by (unfold b'; lra). assert (D : b' - b = s / b) by (unfold b'; lra).
    assert (SE : s = b * (b' - b)) by (rewrite D; field; lra).
    assert (GS : s <= 2 * L * H).
    { pose proof (grad_small x E) as G. fold s in G. assert (L * (f x - low) <= L * H) by (apply Rmult_le_compat_l; lra). lra. }
    split; [|rewrite SE at 1; apply Rmult_le_compat_r; [lra|exact CAP]].
    set (x' := go (/ b') x). pose proof (go_value (/ b') x E) as V. fold s x' in V.
    assert (E' : length x' = n) by (apply go_length; exact E).
    split; [exact E'|]. split; [lra|]. destruct (Rlt_le_dec b' L) as [C|C].
    - left. split; [exact C|].
      assert (F : f x - low <= gap + L / 2 * ((b - a) / a)) by (destruct I as [[_ F]|[C' _]]; [exact F|lra]).
      (* the rise is at most L/2 (b' - b)/a *)
      assert (Q : / b' * / b' * s <= (b' - b) / a).
      { rewrite SE. replace (/ b' * / b' * (b * (b' - b))) with ((b / b') * ((b' - b) * / b')) by (field; lra).
        assert (0 <= (b' - b) * / b') by (apply Rmult_le_pos; [lra|apply Rlt_le, Rinv_0_lt_compat; lra]).
        assert (b / b' <= 1) by (apply (Rmult_le_reg_r b'); [lra|]; unfold Rdiv; rewrite Rmult_assoc, Rinv_l by lra; lra).
        apply Rle_trans with (1 * ((b' - b) * / b')); [apply Rmult_le_compat_r; assumption|]. rewrite Rmult_1_l.
        apply Rmult_le_compat_l; [lra|]. apply Rinv_le_contravar; lra. }
      apply (Rmult_le_compat_l (L / 2)) in Q; [|lra].
      assert (0 <= / b' * s) by (apply Rmult_le_pos; [apply Rlt_le, Rinv_0_lt_compat; lra|exact S0]).
      assert (EQ : (b' - a) / a = (b - a) / a + (b' - b) / a) by (field; lra). rewrite EQ. lra.
    - right. split; [exact C|].
      (* the objective falls by s/(2 b') *)
      assert (Q : L / 2 * (/ b' * / b' * s) <= / b' * s / 2).
      { replace (L / 2 * (/ b' * / b' * s)) with ((L * / b') * (/ b' * s / 2)) by (field; lra).
        assert (0 <= / b' * s / 2) by (apply Rmult_le_pos; [apply Rmult_le_pos; [apply Rlt_le, Rinv_0_lt_compat; lra|exact S0]|lra]).
        assert (L * / b' <= 1) by (apply (Rmult_le_reg_r b'); [lra|]; rewrite Rmult_assoc, Rinv_l by lra; lra).
        rewrite <- (Rmult_1_l (/ b' * s / 2)) at 2. apply Rmult_le_compat_r; assumption. }
      assert (FALL : f x' <= f x - / b' * s / 2) by lra.
      assert (SP : 0 <= / b' * s) by (apply Rmult_le_pos; [apply Rlt_le, Rinv_0_lt_compat; lra|exact S0]).
      split; [lra|]. pose proof rho_1 as R1. destruct I as [[C' F]|(C' & F & P)].
      + (* the step that passes L *)
        rewrite M_eq. assert (J : s / b <= 2 * L * H / a).
        { unfold Rdiv. apply Rle_trans with (s * / a).
          - apply Rmult_le_compat_l; [exact S0|]. apply Rinv_le_contravar; lra.
          - apply Rmult_le_compat_r; [apply Rlt_le, Rinv_0_lt_compat, HA|exact GS]. }
        assert (rho * (f x' - low) <= rho * H) by (apply Rmult_le_compat_l; lra). lra.
      + (* b grows by at most what rho times the fall pays *)
        assert (J : s / b <= rho * (/ b' * s)).
        { replace (s / b) with ((b' / b) * (/ b' * s)) by (field; lra). apply Rmult_le_compat_r; [exact SP|].
          unfold rho, b'. replace ((b + s / b) / b) with (1 + s / (b * b)) by (field; lra). apply Rplus_le_compat_l.
          replace (2 * H / L) with (2 * L * H / (L * L)) by (field; lra). unfold Rdiv.
          apply Rle_trans with (2 * L * H * / (b * b)).
          - apply Rmult_le_compat_r; [apply Rlt_le, Rinv_0_lt_compat, Rmult_lt_0_compat; lra|exact GS].
          - apply Rmult_le_compat_l; [lra|]. apply Rinv_le_contravar; [apply Rmult_lt_0_compat; exact HL|]. apply Rmult_le_compat; lra. }
        assert (K : rho * (f x' - low) <= rho * (f x - low - / b' * s / 2)) by (apply Rmult_le_compat_l; lra).
        assert (K2 : rho * (f x - low - / b' * s / 2) = rho * (f x - low) - rho * (/ b' * s) / 2) by (field; lra).
        lra.
  Qed.

  (** ** SGD with WNGradUpdate *)
  Variables (alpha b0 : R).
  Hypothesis HAL : 0 < alpha.
  Hypothesis EA : a = b0 / alpha.
  Definition norm2 (g : list R) : R := sqrt (sqn g).
  Lemma norm2_sq g : norm2 g * norm2 g = sqn g. Proof. apply sqrt_sqrt, sqn_nonneg. Qed.
  Lemma wn_up b x g : length x = n -> 0 < b -> g = grad x ->
    let b' := b / alpha + sqn g / (b / alpha) in
    wngrad_up (N := RN) norm2 b x alpha g = (alpha * b', go (/ b') x).
  Proof.
    intros E B -> b'. unfold wngrad_up, go. pose proof (sqn_nonneg (grad x)) as S0.
    assert (Q : nadd (n := RN) b (nmul (n := RN) (ndiv (n := RN) (nmul (n := RN) alpha alpha) b) (nmul (n := RN) (norm2 (grad x)) (norm2 (grad x)))) = alpha * b').
    { cbn [nadd nmul ndiv RNum]. change (@eq R (b + alpha * alpha / b * (norm2 (grad x) * norm2 (grad x))) (alpha * b')). rewrite norm2_sq. unfold b'. field. lra. }
    rewrite Q. f_equal. f_equal. unfold vscale. apply map_ext. intros gi. change (@eq R (alpha * gi / (alpha * b')) (/ b' * gi)).
    assert (0 < b') by (unfold b'; assert (0 < b / alpha) by (apply Rdiv_lt_0_compat; lra); assert (0 <= sqn (grad x) / (b / alpha)) by (apply Rmult_le_pos; [exact S0|apply Rlt_le, Rinv_0_lt_compat; assumption]); lra).
    field. lra.
  Qed.
  Variables (sf : SepFun RN (list R) (list R)) (cb : Callbacks RN (list R) (list R)).
  Hypothesis CB : forall h g, cb_grad cb h g = g.
  Hypothesis EV : forall j x, length x = n -> sf_evalgrad sf j x 0 (sf_num sf) = (f x, grad x).

  Lemma wn_moved h (x : list R) (b : R) d (s : R) :
    moved (N := RN) sf (wngrad_up (N := RN) norm2) (sgd_no_decay (N := RN)) cb x0 b0 tt alpha h x b d s ->
    (forall y i k o g, In (EvalGrad y i k o g) h -> i = 0%nat /\ k = sf_num sf) ->
    s = alpha /\ winv (b / alpha) x /\ sumR (map sqn (batch_grads mx (rev h))) <= M * (b / alpha - a) /\
    Forall (fun y => f y - low <= H) (batch_points mx (rev h)) /\
    batch_grads mx (rev h) = map grad (batch_points mx (rev h)).
  Proof.
    intros MV. induction MV as [|h e x u d s MV IH NE|h i k o g x u d s MV IH E h1 g' x']; intros W.
    - cbn. split; [reflexivity|]. rewrite <- EA. split; [exact winv_start|]. split; [lra|]. split; [constructor|reflexivity].
    - destruct IH as (-> & I & SU & PT & GE); [intros; eapply W; right; eassumption|]. split; [reflexivity|].
      cbn [rev]. rewrite grads_app, points_app. destruct e; cbn; try contradiction; rewrite ?app_nil_r; auto.
    - destruct IH as (-> & I & SU & PT & GE); [intros; eapply W; right; right; eassumption|].
      assert (G' : g' = g) by apply CB. clearbody g'. subst g'.
      destruct (W x i k o g) as [-> ->]; [right; left; reflexivity|].
      destruct I as (Lx & I). assert (Hx : winv (u / alpha) x) by (split; assumption).
      rewrite (EV _ _ Lx) in E. injection E as <- <-.
      assert (U0 : 0 < u).
      { assert (a <= u / alpha) by apply I. apply (Rmult_lt_reg_r (/ alpha)); [apply Rinv_0_lt_compat, HAL|]. rewrite Rmult_0_l. change (u * / alpha) with (u / alpha). lra. }
      unfold x'. rewrite (wn_up u x (grad x) Lx U0 eq_refl). cbn [fst snd sgd_no_decay].
      destruct (winv_step (u / alpha) x Hx) as [I' ST]. set (b' := u / alpha + sqn (grad x) / (u / alpha)) in *.
      assert (EB : alpha * b' / alpha = b') by (field; lra). split; [reflexivity|]. rewrite EB. split; [exact I'|].
      cbn [rev]. unfold h1. cbn [rev]. rewrite !grads_app, !points_app. cbn [batch_grads batch_points app]. rewrite !app_nil_r, !map_app, sumR_app. cbn [map sumR].
      split; [lra|]. split; [apply Forall_app; split; [exact PT|constructor; [apply winv_height with (u / alpha); exact Hx|constructor]]|].
      now rewrite GE.
  Qed.
End Wn.

Lemma some_small (S : R) : forall l : list R, (0 < length l)%nat -> sumR l <= S -> exists v, In v l /\ INR (length l) * v <= S.
Proof.
  assert (G : forall l : list R, (0 < length l)%nat -> exists v, In v l /\ INR (length l) * v <= sumR l).
  { induction l as [|v l IH]; intros P; [cbn in P; lia|]. destruct l as [|w l].
    - exists v. split; [now left|]. cbn. lra.
    - destruct IH as (m & I & Q); [cbn; lia|].
      assert (E : INR (length (v :: w :: l)) = INR (length (w :: l)) + 1) by (cbn [length]; apply S_INR). rewrite E.
      change (sumR (v :: w :: l)) with (v + sumR (w :: l)).
      destruct (Rle_dec v m) as [C|C].
      + exists v. split; [now left|]. assert (INR (length (w :: l)) * v <= INR (length (w :: l)) * m) by (apply Rmult_le_compat_l; [apply pos_INR|exact C]). lra.
      + exists m. split; [now right|]. lra. }
  intros l P Q. destruct (G l P) as (v & I & B). exists v. split; [exact I|lra].
Qed.

Theorem wn_converges mx n L low f grad (sf : SepFun (RNum mx) (list R) (list R)) (cb : Callbacks (RNum mx) (list R) (list R))
    (c : Cfg (RNum mx) (list R) (list R) R unit) (b0 alpha : R) (x0 : list R) fuel (r : res (RNum mx) (list R) (list R) R unit) :
  smooth_on (space n) L f grad -> 0 < L -> (forall x, length x = n -> low <= f x) ->
  (0 < sf_num sf)%nat -> (forall j x, length x = n -> sf_evalgrad sf j x 0 (sf_num sf) = (f x, grad x)) ->
  (forall h g, cb_grad cb h g = g) -> (0 < c_batch c)%nat -> c_dp c = sgd_no_decay (N := RNum mx) ->
  0 < b0 -> 0 < alpha -> length x0 = n -> c_up c = wngrad_up (N := RNum mx) (fun g => sqrt (sqn g)) ->
  optimize_with c sf cb fuel b0 tt alpha x0 = Return r ->
  (forall y i k o g, In (EvalGrad y i k o g) (r_trace r) -> i = 0%nat /\ k = sf_num sf) ->
  let a := b0 / alpha in
  let cap := wn_cap L a (f x0 - low) in
  let points := batch_points mx (r_trace r) in
  b0 <= r_u r <= alpha * cap /\
  (forall y, In y (r_x r :: points) -> f y - low <= wn_height L a (f x0 - low)) /\
  sumR (map (fun y => sqn (grad y)) points) <= cap * (cap - a) /\
  ((0 < length points)%nat -> exists y, In y points /\ INR (length points) * sqn (grad y) <= cap * (cap - a)).
Proof.
  intros SM HL LOW HN EV CB HB ED HB0 HA Lx EU E W a cap points.
  assert (MV := c63 c sf cb x0 _ _ _ fuel HN HB r E). rewrite EU, ED in MV.
  assert (A0 : 0 < a) by (apply Rdiv_lt_0_compat; assumption).
  destruct (wn_moved mx n L low f grad SM HL LOW a x0 A0 Lx alpha b0 HA eq_refl sf cb CB EV _ _ _ _ _ MV) as (_ & I & SU & PT & GE).
  { intros y i k o g Hin. eapply W. apply in_rev. exact Hin. }
  rewrite rev_involutive in *. fold points in PT, GE. rewrite GE, map_map in SU.
  pose proof (winv_cap n L low f HL LOW a x0 A0 Lx _ _ I) as CAP. fold cap in CAP, SU.
  assert (UE : r_u r = alpha * (r_u r / alpha)) by (field; lra).
  assert (SU' : sumR (map (fun y => sqn (grad y)) points) <= cap * (cap - a)).
  { eapply Rle_trans; [exact SU|]. apply Rmult_le_compat_l; [|lra]. destruct I as (_ & I & _). lra. }
  split.
  { destruct I as (_ & I & _). split; [|rewrite UE; apply Rmult_le_compat_l; lra].
    rewrite UE. replace b0 with (alpha * a) by (unfold a; field; lra). apply Rmult_le_compat_l; lra. }
  split.
  { intros y [<-|Hy]; [exact (winv_height n L low f HL a x0 A0 _ _ I)|]. rewrite Forall_forall in PT. now apply PT. }
  split; [exact SU'|]. intros PL.
  destruct (some_small _ (map (fun y => sqn (grad y)) points) ltac:(now rewrite map_length) SU') as (v & Iv & Bv).
  rewrite map_length in Bv. apply in_map_iff in Iv as (y & <- & Iy). exists y. split; assumption.
Qed.

(** one function: every batch is the whole objective *)
Lemma one_function_batches mx {U D : Type} (sf : SepFun (RNum mx) (list R) (list R)) cb (c : Cfg (RNum mx) (list R) (list R) U D) fuel u d (s : R) (x : list R) r :
  sf_num sf = 1%nat -> (0 < c_batch c)%nat -> optimize_with c sf cb fuel u d s x = Return r ->
  forall y i k o g, In (EvalGrad y i k o g) (r_trace r) -> i = 0%nat /\ k = sf_num sf.
Proof.
  intros N1 HB E y i k o g Hin. assert (HN : (0 < sf_num sf)%nat) by lia.
  pose proof (proj2 (c01 c sf cb x u d s fuel HN HB r E) y i k o g Hin) as [A B]. lia.
Qed.

(** ** Plain SGD with too large a step *)
Definition half_square (mx : R) : SepFun (RNum mx) (list R) (list R) :=
  {| sf_num := 1; sf_eval := fun _ x _ _ => / 2 * sqn x : T (RNum mx); sf_evalgrad := fun _ x _ _ => (/ 2 * sqn x, x) |}.
Lemma half_square_smooth n : smooth_on (space n) 1 (fun x => / 2 * sqn x) (fun x => x).
Proof.
  pose proof (bowl_smooth n 1) as [A B]. assert (M1 : forall x : list R, map (Rmult 1) x = x).
  { induction x as [|v x IH]; cbn; [reflexivity|]. rewrite IH. f_equal. lra. }
  split.
  - intros x Hx. specialize (A x Hx). rewrite M1 in A. unfold Rdiv in A. rewrite Rmult_1_l in A. exact A.
  - intros x y Hx Hy. specialize (B x y Hx Hy). now rewrite !M1 in B.
Qed.
Lemma plain_diverges mx (cb : Callbacks (RNum mx) (list R) (list R)) (c : Cfg (RNum mx) (list R) (list R) (list unit) unit) fuel r :
  (forall h g, cb_grad cb h g = g) -> (0 < c_batch c)%nat -> c_up c = sgd_vanilla (N := RNum mx) -> c_dp c = sgd_no_decay (N := RNum mx) ->
  optimize_with c (half_square mx) cb fuel [tt] tt 3 [1] = Return r ->
  r_x r = [(- 2) ^ length (batch_points mx (r_trace r))].
Proof.
  intros CB HB EU ED E. assert (MV := c63 c (half_square mx) cb [1] _ _ _ fuel (Nat.lt_0_succ 0) HB r E). rewrite EU, ED in MV.
  assert (G : forall h (x : list R) u d (s : R), moved (N := RNum mx) (half_square mx) (sgd_vanilla (N := RNum mx)) (sgd_no_decay (N := RNum mx)) cb [1] [tt] tt 3 h x u d s ->
    s = 3 /\ u = [tt] /\ x = [(- 2) ^ length (batch_points mx (rev h))]).
  { intros h x u d s MW. induction MW as [|h e x u d s MW IH NE|h i k o g x u d s MW IH EE h1 g' x'].
    - cbn. auto.
    - destruct IH as (-> & -> & ->). cbn [rev]. rewrite points_app. destruct e; cbn; try contradiction; rewrite ?app_nil_r; auto.
    - destruct IH as (-> & -> & ->). assert (G' : g' = g) by apply CB. clearbody g'. subst g'.
      cbn in EE. injection EE as <- <-. split; [reflexivity|]. split; [reflexivity|].
      unfold x', h1. cbn [rev]. rewrite !points_app, !app_length. cbn [batch_points length app].
      rewrite Nat.add_0_r, Nat.add_1_r. cbn. f_equal.
      match goal with |- ?l = ?q => change (@eq R l q) end. ring. }
  destruct (G _ _ _ _ _ MV) as (_ & _ & Q). now rewrite rev_involutive in Q.
Qed.
