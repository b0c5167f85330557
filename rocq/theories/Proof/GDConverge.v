(** Gradient descent on smooth functions. *)
From Coq Require Import List Arith Bool Reals Lra Lia.
From Verif.Base Require Import Num Vec Size Instances.
From Verif.Model Require Import Common GradientDescent.
From Verif.Spec Require Import CommonSpec GDSpec Gradient FWSpec HeardSpec ConvergeSpec.
From Verif.Proof Require Import GDProof HeardProof GradientProof SmoothProof.
Import ListNotations.
Local Open Scope R_scope.

Section GD.
  Variable mx : R.
  Notation RN := (RNum mx).
  Variables (n : nat) (L alpha : R) (f : list R -> R) (grad : list R -> list R).
  Hypothesis SM : smooth_on (space n) L f grad.
  Hypothesis HL : 0 <= L.
  Hypothesis HA : 0 < alpha.
  Hypothesis AL : alpha * L <= 1.

  Definition gstep (x : list R) : list R := vsub (N := RN) x (vscale (N := RN) alpha (grad x)).

  Lemma gstep_dist : forall x g y : list R, length g = length x -> length y = length x ->
    sqdist (vsub (N := RN) x (vscale (N := RN) alpha g)) y = sqdist x y - 2 * alpha * (dotR g x - dotR g y) + alpha * alpha * sqn g.
  Proof.
    unfold vsub, vscale, sqn. induction x as [|a x IH]; intros [|b g] [|c y] E1 E2; try discriminate; cbn; [lra|].
    cbn in IH. rewrite IH by (cbn in *; lia). lra.
  Qed.
  Lemma gstep_dot : forall x g h : list R, length g = length x ->
    dotR h (vsub (N := RN) x (vscale (N := RN) alpha g)) = dotR h x - alpha * dotR h g.
  Proof.
    unfold vsub, vscale. induction x as [|a x IH]; intros [|b g] [|c h] E; try discriminate; cbn; try lra.
    cbn in IH. rewrite IH by (cbn in *; lia). lra.
  Qed.
  Lemma gstep_length x : space n x -> space n (gstep x).
  Proof.
    intros H. unfold space, gstep, vsub, vscale in *. rewrite map2_length, map_length. change (T RN) with R.
    destruct (proj1 SM x H) as [E _]. rewrite E, H. apply Nat.min_id.
  Qed.

  (** one step: the objective falls by at least alpha/2 |gradient|^2 *)
  Lemma gstep_descends x : space n x -> f (gstep x) <= f x - alpha / 2 * sqn (grad x).
  Proof.
    intros H. pose proof (gstep_length x H) as H'. destruct (proj1 SM x H) as [E _].
    pose proof (descent_lemma n (space n) f grad (space_convex n) L x (gstep x) HL SM H H') as D.
    unfold gstep in D at 2. rewrite gstep_dot in D by exact E.
    assert (S : sqdist (gstep x) x = alpha * alpha * sqn (grad x)).
    { unfold gstep. rewrite gstep_dist by (try exact E; reflexivity). rewrite sqdist_0. lra. }
    rewrite S in D. fold (sqn (grad x)) in D. pose proof (sqn_nonneg (grad x)) as P.
    assert (Q : L / 2 * (alpha * alpha * sqn (grad x)) <= alpha / 2 * sqn (grad x)).
    { replace (L / 2 * (alpha * alpha * sqn (grad x))) with (alpha * L * (alpha / 2 * sqn (grad x))) by lra.
      rewrite <- (Rmult_1_l (alpha / 2 * sqn (grad x))) at 2. apply Rmult_le_compat_r; [|exact AL].
      apply Rmult_le_pos; [lra|exact P]. }
    lra.
  Qed.
  (** and, for a convex function, it moves towards every better point *)
  Lemma gstep_fejer x y : convex_on (space n) f -> space n x -> space n y ->
    2 * alpha * (f (gstep x) - f y) <= sqdist x y - sqdist (gstep x) y.
  Proof.
    intros CV Hx Hy. destruct (proj1 SM x Hx) as [E _].
    pose proof (tangent_lemma n (space n) f (space_convex n) x (grad x) y CV (proj1 SM x Hx) Hx Hy) as T.
    unfold gstep at 2. rewrite gstep_dist by (unfold space in *; try exact E; congruence).
    pose proof (gstep_descends x Hx) as D.
    apply (Rmult_le_compat_l (2 * alpha)) in D; [|lra].
    assert (T' : 2 * alpha * (f x - f y) <= 2 * alpha * (dotR (grad x) x - dotR (grad x) y)) by (apply Rmult_le_compat_l; lra).
    lra.
  Qed.
  Lemma gstep_contract mu x y : strongly_convex_on (space n) mu f -> space n x -> space n y -> (forall z, space n z -> f y <= f z) ->
    sqdist (gstep x) y <= (1 - alpha * mu) * sqdist x y.
  Proof.
    intros SC Hx Hy MN. destruct (proj1 SM x Hx) as [E _].
    pose proof (strong_tangent n (space n) f mu x (grad x) y (space_convex n) SC (proj1 SM x Hx) Hx Hy) as T.
    unfold gstep. rewrite gstep_dist by (unfold space in *; try exact E; congruence).
    pose proof (gstep_descends x Hx) as D. pose proof (MN _ (gstep_length x Hx)) as M. rewrite (sqdist_sym y x) in T.
    apply (Rmult_le_compat_l (2 * alpha)) in D; [|lra].
    assert (T' : 2 * alpha * (f x - f y + mu / 2 * sqdist x y) <= 2 * alpha * (dotR (grad x) x - dotR (grad x) y)) by (apply Rmult_le_compat_l; lra).
    assert (M' : 2 * alpha * f y <= 2 * alpha * f (gstep x)) by (apply Rmult_le_compat_l; lra).
    lra.
  Qed.

  (** ** Runs *)
  Fixpoint giter (k : nat) (x : list R) : list R := match k with O => x | S k => giter k (gstep x) end.
  Lemma giter_S k : forall x, giter (S k) x = gstep (giter k x).
  Proof. induction k as [|k IH]; intros x; [reflexivity|]. cbn [giter] in *. apply IH. Qed.
  Lemma giter_length k : forall x, space n x -> space n (giter k x).
  Proof. induction k as [|k IH]; intros x H; [exact H|]. cbn. apply IH, gstep_length, H. Qed.

  Lemma heard_grad (cb : CB RN (list R) (list R)) : (forall h x v g, cs_grad cb h x v g = g) ->
    forall tr, heard (N := RN) cb tr -> Forall (fun e => snd e = e_grad (N := RN) e) (evalgs (rev tr)).
  Proof.
    intros CB. induction tr as [|e tr IH]; intros H; [constructor|]. destruct H as [H1 H2]. cbn [rev].
    unfold evalgs. rewrite flat_map_app. apply Forall_app. split; [apply IH, H2|].
    destruct e; cbn; constructor; [|constructor]. cbn. rewrite H1. apply CB.
  Qed.

  Lemma chain_points : forall es x, chain (e_at (N := RN)) (e_next (N := RN) alpha) x es ->
    Forall (fun e => (f (e_at (N := RN) e), grad (e_at (N := RN) e)) = (e_val (N := RN) e, e_grad (N := RN) e)) es -> Forall (fun e => snd e = e_grad (N := RN) e) es ->
    (forall k e, nth_error es k = Some e -> e_at (N := RN) e = giter k x /\ e_val (N := RN) e = f (giter k x) /\ e_grad (N := RN) e = grad (giter k x)) /\
    arrive (e_next (N := RN) alpha) x es = giter (length es) x.
  Proof.
    induction es as [|e es IH]; intros x C F G.
    - split; [intros [|k] e E; discriminate|reflexivity].
    - destruct C as [C0 C]. inversion F as [|? ? F0 F']; subst. inversion G as [|? ? G0 G']; subst.
      injection F0 as F1 F2.
      assert (NX : e_next (N := RN) alpha e = gstep (e_at (N := RN) e)) by (unfold e_next, gstep; rewrite G0, <- F2; reflexivity).
      destruct (IH _ C F' G') as [A B]. rewrite NX in A, B. split.
      + intros [|k] e' E; [injection E as <-; cbn; auto|]. cbn [giter]. apply A, E.
      + unfold arrive in *. cbn [fold_left length giter]. rewrite NX. exact B.
  Qed.

  Variables (maxIterations : nat) (tolerance : R) (cb : CB RN (list R) (list R)).
  Hypothesis CBG : forall h x v g, cs_grad cb h x v g = g.
  Variables (fuel : nat) (x0 : list R) (r : Res RN (list R) (list R)).
  Hypothesis X0 : space n x0.
  Hypothesis RUN : gd (N := RN) alpha maxIterations tolerance (fun x => (f x, grad x)) cb fuel x0 = Some r.
  Notation es := (evalgs (o_tr r)).

  Lemma run_points : (forall k e, nth_error es k = Some e ->
      e_at (N := RN) e = giter k x0 /\ e_val (N := RN) e = f (giter k x0) /\ e_grad (N := RN) e = grad (giter k x0)) /\
    exists m, o_x r = giter m x0 /\ length (steps_to (o_tr r)) = m.
  Proof.
    pose proof (gd_ok (N := RN) alpha maxIterations tolerance _ cb fuel x0 r RUN) as (B1 & B2 & B3 & B4 & B5 & B6 & B7).
    pose proof (gd_heard_all (N := RN) alpha maxIterations tolerance _ cb fuel x0 r RUN) as H.
    apply (heard_grad cb CBG) in H. rewrite rev_involutive in H.
    destruct (chain_points es x0 B2 B3 H) as [A B]. split; [exact A|].
    destruct B6 as [(_ & E & S & _)|(before & e & E & _ & X & S)].
    - exists (length es). split; [exact (eq_trans E B)|]. etransitivity; [exact (f_equal (@length _) S)|apply map_length].
    - exists (length before). split; [|etransitivity; [exact (f_equal (@length _) S)|apply map_length]].
      etransitivity; [exact X|]. apply A. etransitivity; [exact (f_equal (fun l => nth_error l (length before)) E)|].
      rewrite nth_error_app2, Nat.sub_diag by lia. reflexivity.
  Qed.

  Theorem gd_descends : forall k e e', nth_error es k = Some e -> nth_error es (S k) = Some e' ->
    e_val (N := RN) e' <= e_val (N := RN) e - alpha / 2 * sqn (e_grad (N := RN) e).
  Proof.
    intros k e e' E E'. destruct run_points as [A _]. destruct (A k e E) as (_ & -> & ->). destruct (A _ e' E') as (_ & -> & _).
    rewrite giter_S. apply gstep_descends, giter_length, X0.
  Qed.
  Lemma giter_down k : forall x, space n x -> f (giter k x) <= f x.
  Proof.
    induction k as [|k IH]; intros x H; [cbn; lra|]. cbn. eapply Rle_trans; [apply IH, gstep_length, H|].
    pose proof (gstep_descends x H). pose proof (sqn_nonneg (grad x)). nra.
  Qed.
  Theorem gd_final_below : f (o_x r) <= f x0.
  Proof. destruct run_points as [_ (m & E & _)]. replace (f (o_x r)) with (f (giter m x0)) by (f_equal; symmetry; exact E). apply giter_down, X0. Qed.

  (** stopping by the tolerance certifies a small gradient *)
  Theorem gd_tolerance : forall before e e', es = before ++ [e; e'] ->
    stop_test (N := RN) tolerance (e_val (N := RN) e) (e_val (N := RN) e') = true -> alpha * sqn (e_grad (N := RN) e) < 2 * tolerance.
  Proof.
    intros before e e' E ST. pose proof (gd_descends (length before) e e') as D.
    rewrite E in D. rewrite nth_error_app2, Nat.sub_diag in D by lia.
    specialize (D eq_refl). rewrite nth_error_app2 in D by lia. replace (S (length before) - length before)%nat with 1%nat in D by lia.
    specialize (D eq_refl). unfold stop_test in ST. cbn in ST.
    destruct (Rltb_spec (Rabs (e_val (N := RN) e - e_val (N := RN) e')) tolerance) as [H|]; [|discriminate].
    apply Rabs_def2 in H. lra.
  Qed.

  (** the squared gradients add up to at most 2/alpha times what the objective can lose *)
  Lemma giter_grads low : (forall x, space n x -> low <= f x) -> forall k x, space n x ->
    alpha * sumR (map (fun i => sqn (grad (giter i x))) (seq 0 k)) <= 2 * (f x - low).
  Proof.
    intros LW. induction k as [|k IH]; intros x H.
    - cbn. specialize (LW x H). lra.
    - cbn [seq map sumR]. rewrite <- seq_shift, map_map. specialize (IH _ (gstep_length x H)). cbn [giter].
      pose proof (gstep_descends x H). cbn [giter] in IH. lra.
  Qed.
  Lemma map_nth_error_seq {A B} (l : list A) (u : A -> B) (v : nat -> B) : (forall k a, nth_error l k = Some a -> u a = v k) ->
    map u l = map v (seq 0 (length l)).
  Proof.
    revert v. induction l as [|a l IH]; intros v H; [reflexivity|]. cbn [length seq map]. rewrite (H 0%nat a eq_refl). f_equal.
    rewrite <- seq_shift, map_map. apply IH. intros k b E. apply (H (S k)). exact E.
  Qed.
  Theorem gd_gradients low : (forall x, space n x -> low <= f x) ->
    alpha * sumR (map (fun e => sqn (e_grad (N := RN) e)) es) <= 2 * (f x0 - low).
  Proof.
    intros LW. rewrite (map_nth_error_seq es _ (fun i => sqn (grad (giter i x0)))).
    - apply giter_grads; assumption.
    - intros k e E. destruct run_points as [A _]. destruct (A k e E) as (_ & _ & ->). reflexivity.
  Qed.

  (** convex: value after k steps *)
  Lemma giter_rate y : convex_on (space n) f -> space n y -> forall k x, space n x ->
    INR k * (2 * alpha * (f (giter k x) - f y)) <= sqdist x y - sqdist (giter k x) y.
  Proof.
    intros CV Hy. induction k as [|k IH]; intros x H.
    - cbn. lra.
    - cbn [giter]. rewrite S_INR. specialize (IH _ (gstep_length x H)). pose proof (gstep_fejer x y CV H Hy) as F.
      pose proof (giter_down k _ (gstep_length x H)) as D.
      assert (2 * alpha * (f (giter k (gstep x)) - f y) <= 2 * alpha * (f (gstep x) - f y)) by (apply Rmult_le_compat_l; lra). lra.
  Qed.
  Theorem gd_rate y : convex_on (space n) f -> space n y ->
    (forall k e, nth_error es k = Some e -> INR k * (2 * alpha * (e_val (N := RN) e - f y)) <= sqdist x0 y) /\
    INR (length (steps_to (o_tr r))) * (2 * alpha * (f (o_x r) - f y)) <= sqdist x0 y.
  Proof.
    intros CV Hy. destruct run_points as [A (m & -> & ->)]. split.
    - intros k e E. destruct (A k e E) as (_ & -> & _). pose proof (giter_rate y CV Hy k x0 X0). pose proof (sqdist_nonneg (giter k x0) y). lra.
    - pose proof (giter_rate y CV Hy m x0 X0). pose proof (sqdist_nonneg (giter m x0) y). lra.
  Qed.
  (** the distance to a minimiser never grows *)
  Theorem gd_fejer y : convex_on (space n) f -> space n y -> (forall z, space n z -> f y <= f z) ->
    (forall k e e', nth_error es k = Some e -> nth_error es (S k) = Some e' -> sqdist (e_at (N := RN) e') y <= sqdist (e_at (N := RN) e) y) /\
    sqdist (o_x r) y <= sqdist x0 y.
  Proof.
    intros CV Hy MN. destruct run_points as [A (m & -> & _)].
    assert (ONE : forall x, space n x -> sqdist (gstep x) y <= sqdist x y).
    { intros x H. pose proof (gstep_fejer x y CV H Hy) as F. pose proof (MN _ (gstep_length x H)) as M.
      assert (0 <= 2 * alpha * (f (gstep x) - f y)) by (apply Rmult_le_pos; lra). lra. }
    split.
    - intros k e e' E E'. destruct (A k e E) as (-> & _). destruct (A _ e' E') as (-> & _). rewrite giter_S. apply ONE, giter_length, X0.
    - clear A. induction m as [|m IH]; [cbn; lra|]. rewrite giter_S. eapply Rle_trans; [apply ONE, giter_length, X0|exact IH].
  Qed.
  (** strongly convex: linear convergence *)
  Theorem gd_linear mu y : 0 <= mu -> alpha * mu <= 1 -> strongly_convex_on (space n) mu f -> space n y -> (forall z, space n z -> f y <= f z) ->
    (forall k e, nth_error es k = Some e -> sqdist (e_at (N := RN) e) y <= (1 - alpha * mu) ^ k * sqdist x0 y) /\
    sqdist (o_x r) y <= (1 - alpha * mu) ^ length (steps_to (o_tr r)) * sqdist x0 y.
  Proof.
    intros HM AM SC Hy MN. destruct run_points as [A (m & -> & ->)].
    assert (ALL : forall k, sqdist (giter k x0) y <= (1 - alpha * mu) ^ k * sqdist x0 y).
    { induction k as [|k IH]; [cbn; lra|]. rewrite giter_S. cbn [pow].
      eapply Rle_trans; [apply (gstep_contract mu); [exact SC|apply giter_length, X0|exact Hy|exact MN]|].
      rewrite Rmult_assoc. apply Rmult_le_compat_l; [lra|exact IH]. }
    split; [|apply ALL]. intros k e E. destruct (A k e E) as (-> & _). apply ALL.
  Qed.

  (** a positive tolerance bounds the number of evaluations *)
  Lemma tests_false : forall vs prev (low : R), 0 < tolerance ->
    (forall k a b, nth_error vs k = Some a -> nth_error vs (S k) = Some b -> b <= a) ->
    (forall v, In v vs -> low <= v) -> (forall v, hd_error vs = Some v -> v <= prev) ->
    Forall (fun b => b = false) (stop_tests (N := RN) tolerance prev vs) -> vs <> [] -> INR (length vs) * tolerance <= prev - low.
  Proof.
    induction vs as [|v vs IH]; intros prev low P DN LW HD F NE; [congruence|].
    cbn [stop_tests] in F. inversion F as [|? ? F0 F']; subst.
    unfold stop_test in F0. cbn in F0. destruct (Rltb_spec (Rabs (prev - v)) tolerance) as [|GE]; [discriminate|].
    specialize (HD v eq_refl). rewrite Rabs_right in GE by lra.
    change (length (v :: vs)) with (S (length vs)). rewrite S_INR. destruct vs as [|w vs].
    - cbn. specialize (LW v (or_introl eq_refl)). lra.
    - assert (Q := IH v low P). assert (INR (length (w :: vs)) * tolerance <= v - low); [|lra]. apply Q.
      + intros k a b Ha Hb. apply (DN (S k)); assumption.
      + intros u IU. apply LW. right. exact IU.
      + intros u Hu. injection Hu as Hu. rewrite <- Hu. apply (DN 0%nat v w); reflexivity.
      + exact F'.
      + discriminate.
  Qed.
  Lemma nth_error_map_inv {A B} (u : A -> B) : forall l k b, nth_error (map u l) k = Some b -> exists a, nth_error l k = Some a /\ u a = b.
  Proof. induction l as [|a l IH]; intros [|k] b E; cbn in *; try discriminate; [injection E as <-; eauto|apply IH, E]. Qed.
  Lemma nth_error_app1_some {A} : forall (l l' : list A) k a, nth_error l k = Some a -> nth_error (l ++ l') k = Some a.
  Proof. induction l as [|b l IH]; intros l' [|k] a E; cbn in *; try discriminate; [exact E|apply IH, E]. Qed.
  Theorem gd_count low : 0 < tolerance -> (forall x, space n x -> low <= f x) ->
    INR (length es) * tolerance <= f x0 - low + 2 * tolerance.
  Proof.
    intros P LW. destruct run_points as [A _].
    pose proof (gd_ok (N := RN) alpha maxIterations tolerance _ cb fuel x0 r RUN) as (_ & _ & _ & _ & _ & B6 & _).
    match type of B6 with context [stop_tests _ _ ?v] => set (vs := v) in * end.
    assert (LV : length vs = length es) by apply map_length.
    assert (KV : INR (length es) * tolerance = INR (length vs) * tolerance) by (f_equal; f_equal; symmetry; exact LV).
    eapply Rle_trans; [right; exact KV|]. clear KV.
    assert (NTH : forall k v, nth_error vs k = Some v -> v = f (giter k x0)).
    { intros k v E. apply nth_error_map_inv in E as (e & Ee & <-). apply (A k e Ee). }
    assert (DN : forall k a b, nth_error vs k = Some a -> nth_error vs (S k) = Some b -> b <= a).
    { intros k a b Ha Hb. rewrite (NTH _ _ Ha), (NTH _ _ Hb), giter_S. pose proof (giter_down 1 _ (giter_length k x0 X0)) as D. exact D. }
    assert (LO : forall v, In v vs -> low <= v).
    { intros v IV. apply In_nth_error in IV as [k E]. rewrite (NTH _ _ E). apply LW, giter_length, X0. }
    assert (F0 := LW x0 X0).
    (* all tests but the first, up to the last but one, are negative *)
    assert (MID : forall v0 vs', vs = v0 :: vs' -> forall us, (exists w, vs' = us ++ w /\ (length w <= 1)%nat) ->
      Forall (fun b => b = false) (stop_tests (N := RN) tolerance v0 us) -> INR (length vs) * tolerance <= f x0 - low + 2 * tolerance).
    { intros v0 vs' EV us (w & EW & LW1) F. rewrite EV, EW. cbn [length]. rewrite app_length.
      assert (V0 : v0 = f x0) by (apply (NTH 0%nat); rewrite EV; reflexivity).
      assert (U : INR (length us) * tolerance <= v0 - low).
      { destruct us as [|u us]; [cbn; lra|]. apply tests_false; try assumption; try discriminate.
        - intros k a b Ha Hb. apply (DN (S k)); rewrite EV, EW; cbn [nth_error]; apply nth_error_app1_some; assumption.
        - intros u' IU. apply LO. rewrite EV, EW. right. apply in_or_app. left. exact IU.
        - intros v Hv. injection Hv as Hv. rewrite <- Hv. apply (DN 0%nat v0 u); rewrite EV, EW; reflexivity. }
      rewrite S_INR, plus_INR. assert (INR (length w) <= 1) by (change 1 with (INR 1); apply le_INR; exact LW1). nra. }
    clearbody vs. destruct vs as [|v0 vs'].
    { cbn. lra. }
    destruct B6 as [(F & _)|(before & e & E & ST & _)].
    - apply (MID v0 vs' eq_refl vs'); [exists []; rewrite app_nil_r; split; [reflexivity|cbn; lia]|].
      cbn [stop_tests] in F. inversion F; assumption.
    - apply (f_equal (@length _)) in E. assert (LE := eq_trans LV E). clear LV E.
      destruct before as [|b0 before].
      { rename LE into LV. cbn in LV. assert (vs' = []) as -> by (destruct vs'; [reflexivity|discriminate]). cbn. lra. }
      cbn [stop_tests length repeat app] in ST. injection ST as _ ST.
      assert (EX : exists us w, vs' = us ++ [w]).
      { destruct (exists_last (l := vs')) as (us & w & ->); [|eauto]. intros Z. subst vs'.
        cbn in LE. rewrite app_length in LE. cbn in LE. lia. }
      destruct EX as (us & w & ->). apply (MID v0 _ eq_refl us); [exists [w]; split; [reflexivity|cbn; lia]|].
      assert (FT : forall (a : list R) p b, stop_tests (N := RN) tolerance p (a ++ [b]) = repeat false (length before) ++ [true] ->
        length a = length before -> Forall (fun b => b = false) (stop_tests (N := RN) tolerance p a)).
      { intros a. generalize (length before). induction a as [|z a IH]; intros m p b S LL; [constructor|].
        cbn in LL. subst m. cbn in S. injection S as S1 S2. constructor; [exact S1|]. eapply IH; [exact S2|reflexivity]. }
      eapply FT; [exact ST|]. cbn in LE. rewrite !app_length in LE. cbn in LE. change (T RN) with R in *. lia.
  Qed.
End GD.

(** ** The functions mu/2 |x|^2 meet every hypothesis *)
Lemma sqn_segment_convex t : 0 <= t <= 1 -> forall a b, sqn (segment_pt t a b) <= (1 - t) * sqn a + t * sqn b.
Proof.
  intros [T0 T1]. unfold segment_pt. induction a as [|u a IH]; intros [|v b].
  - cbn. lra.
  - pose proof (Rmult_le_pos _ _ T0 (sqn_nonneg (v :: b))). cbn in *. lra.
  - assert (T2 : 0 <= 1 - t) by lra. pose proof (Rmult_le_pos _ _ T2 (sqn_nonneg (u :: a))). cbn in *. lra.
  - specialize (IH b). unfold sqn in *. cbn in *.
    assert (0 <= t * (1 - t) * ((u - v) * (u - v))) by (apply Rmult_le_pos; [apply Rmult_le_pos; lra|apply Rle_0_sqr]). lra.
Qed.
Lemma bowl_smooth n mu : smooth_on (space n) mu (fun x => mu / 2 * sqn x) (map (Rmult mu)).
Proof.
  split; [intros x _; apply gradient_sqn|]. intros x y _ _. right. revert y. induction x as [|a x IH]; intros [|b y]; cbn; try lra.
  rewrite IH. lra.
Qed.
Lemma bowl_convex n mu : 0 <= mu -> convex_on (space n) (fun x => mu / 2 * sqn x).
Proof.
  intros M t a b T _ _. pose proof (sqn_segment_convex t T a b) as S. apply (Rmult_le_compat_l (mu / 2)) in S; lra.
Qed.
Lemma bowl_strong n mu : strongly_convex_on (space n) mu (fun x => mu / 2 * sqn x).
Proof. intros t a b _ _ _. lra. Qed.
