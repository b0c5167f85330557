From Coq Require Import List Arith Bool ZArith Lia.
From Verif.Base Require Import Num Vec.
From Verif.Model Require Import Common SA LBFGS.
From Verif.Spec Require Import CommonSpec LBFGSSpec.
From Verif.Proof Require Import SAProof.
Import ListNotations.

Section Ring.
  Context {N : Num}.
  Notation vec := (list N).
  Variable nb : nat.
  Hypothesis NB : 0 < nb.

  (** [s], [y] hold the most recent pairs of the history [h] (oldest first) *)
  Definition ring_ok (h : list (vec * vec)) (s y : list vec) : Prop :=
    length s = nb /\ length y = nb /\
    forall i p, nth_error h i = Some p -> length h <= i + nb ->
      nth_error s (i mod nb) = Some (fst p) /\ nth_error y (i mod nb) = Some (snd p).

  Lemma ring_init s y : length s = nb -> length y = nb -> ring_ok [] s y.
  Proof. intros A B. split; [exact A|split; [exact B|]]. intros [|i] p E; discriminate. Qed.

  Lemma mod_distinct i k : i < k -> k < i + nb -> i mod nb <> k mod nb.
  Proof.
    intros A B E. pose proof (Nat.div_mod i nb ltac:(lia)) as I. pose proof (Nat.div_mod k nb ltac:(lia)) as K.
    rewrite E in I. revert I K. generalize (i / nb), (k / nb), (k mod nb). intros a b r I K.
    destruct (Nat.le_gt_cases b a) as [H|H].
    - pose proof (Nat.mul_le_mono_l b a nb H). lia.
    - pose proof (Nat.mul_le_mono_l (a + 1) b nb ltac:(lia)). rewrite Nat.mul_add_distr_l in H0. lia.
  Qed.

  Lemma ring_update h s y x xo g go : ring_ok h s y ->
    exists s' y', update_basis nb (length h) x xo g go s y = Some (s', y') /\
      ring_ok (h ++ [(vsub x xo, vsub g go)]) s' y'.
  Proof.
    intros (A & B & C). pose proof (Nat.mod_upper_bound (length h) nb ltac:(lia)) as M.
    unfold update_basis. replace (nb =? 0) with false by (symmetry; apply Nat.eqb_neq; lia).
    rewrite A, B. replace (length h mod nb <? nb) with true by (symmetry; apply Nat.ltb_lt; lia). cbn [andb].
    do 2 eexists. split; [reflexivity|]. split; [rewrite set_nth_length; exact A|].
    split; [rewrite set_nth_length; exact B|]. intros i p E L. rewrite app_length in L. cbn [length] in L.
    assert (Hi : i < length (h ++ [(vsub x xo, vsub g go)])) by (apply nth_error_Some; congruence).
    rewrite app_length in Hi. cbn [length] in Hi.
    destruct (Nat.eq_dec i (length h)) as [->|NE].
    - rewrite nth_error_app2, Nat.sub_diag in E by lia. injection E as <-. cbn [fst snd].
      split; apply set_nth_same; lia.
    - rewrite nth_error_app1 in E by lia. destruct (C i p E ltac:(lia)) as [C1 C2].
      rewrite !set_nth_other by (apply mod_distinct; lia). auto.
  Qed.

  (** forward and backward halves of the recursion *)
  Fixpoint fwd (w : list (vec * vec)) (q : vec) : vec * list (N * N) :=
    match w with
    | [] => (q, [])
    | (s, y) :: r =>
        let rho := curvature_weight s y in
        let a := nmul rho (vdot s q) in
        let t := fwd r (vsub q (vscale a y)) in (fst t, (rho, a) :: snd t)
    end.
  Definition bstep (p : vec * vec) (c : N * N) (d : vec) : vec :=
    vadd d (vscale (nsub (snd c) (nmul (fst c) (vdot (snd p) d))) (fst p)).
  Fixpoint bwd (w : list (vec * vec)) (l : list (N * N)) (d : vec) : vec :=
    match w, l with
    | p :: w', c :: l' => bstep p c (bwd w' l' d)
    | _, _ => d
    end.

  Lemma two_loop_eq gamma : forall w q,
    two_loop gamma w q = bwd w (snd (fwd w q)) (vtimes (fst (fwd w q)) gamma).
  Proof.
    induction w as [|[s y] w IH]; intros q; [reflexivity|].
    cbn [two_loop fwd fst snd bwd]. rewrite IH. reflexivity.
  Qed.
  Lemma fwd_length : forall w q, length (snd (fwd w q)) = length w.
  Proof. induction w as [|[s y] w IH]; intros q; cbn [fwd snd length]; [reflexivity|]. rewrite IH. reflexivity. Qed.
  Lemma bwd_snoc : forall w l p c d, length w = length l ->
    bwd (w ++ [p]) (l ++ [c]) d = bwd w l (bstep p c d).
  Proof.
    induction w as [|p' w IH]; intros [|c' l] p c d L; cbn in L |- *; try discriminate; [reflexivity|].
    rewrite IH by lia. reflexivity.
  Qed.

  Section Dir.
  Variables (h : list (vec * vec)) (s y : list vec).
  Hypothesis RO : ring_ok h s y.
  Notation k := (length h).
  Notation limit := (if k <? nb then 0 else k - nb).
  Notation w := (firstn nb (rev h)).

  Lemma limit_eq : limit = k - nb.
  Proof. destruct (Nat.ltb_spec k nb); lia. Qed.
  Lemma w_length : length w = k - limit.
  Proof. rewrite limit_eq, firstn_length, rev_length. lia. Qed.
  Lemma w_nth j : j < k - limit -> nth_error w j = nth_error h (k - 1 - j).
  Proof.
    rewrite limit_eq. intros J. assert (X : nth_error w j = nth_error (rev h) j).
    { rewrite <- (firstn_skipn nb (rev h)) at 2. rewrite nth_error_app1; [reflexivity|].
      rewrite firstn_length, rev_length. lia. }
    rewrite X. destruct (nth_error h (k - 1 - j)) as [p|] eqn:E.
    2: { apply nth_error_None in E. lia. }
    apply nth_error_nth with (d := p) in E. rewrite <- E at 1.
    rewrite (nth_error_nth' (rev h) p) by (rewrite rev_length; lia).
    rewrite rev_nth by lia. do 2 f_equal. lia.
  Qed.
  (** the slices the loops read *)
  Lemma slice j p : nth_error w j = Some p ->
    nth_error s ((k - 1 - j) mod nb) = Some (fst p) /\ nth_error y ((k - 1 - j) mod nb) = Some (snd p).
  Proof.
    intros E. assert (J : j < k - limit) by (rewrite <- w_length; apply nth_error_Some; congruence).
    rewrite w_nth in E by exact J. rewrite limit_eq in J. destruct RO as (_ & _ & C).
    apply C; [exact E|lia].
  Qed.

  Lemma loop1_ok : forall cnt d rho alpha, cnt <= k - limit -> length rho = nb -> length alpha = nb ->
    let w' := skipn (k - limit - cnt) w in
    exists rho' alpha',
      sd_loop1 nb s y k limit cnt d rho alpha = Some (fst (fwd w' d), rho', alpha') /\
      length rho' = nb /\ length alpha' = nb /\
      (forall j, j < k - limit - cnt -> nth_error rho' j = nth_error rho j /\ nth_error alpha' j = nth_error alpha j) /\
      (forall j c, nth_error (snd (fwd w' d)) j = Some c ->
         nth_error rho' (k - limit - cnt + j) = Some (fst c) /\
         nth_error alpha' (k - limit - cnt + j) = Some (snd c)).
  Proof.
    induction cnt as [|c IH]; intros d rho alpha C LR LA w'.
    - subst w'. rewrite Nat.sub_0_r, skipn_all2 by (rewrite w_length; lia).
      exists rho, alpha. cbn. repeat split; auto; destruct j; discriminate.
    - set (j0 := k - limit - S c) in *.
      destruct (nth_error w j0) as [[sm ym]|] eqn:E.
      2: { apply nth_error_None in E. rewrite w_length in E. lia. }
      destruct (slice j0 _ E) as [SS SY]. cbn [fst snd] in SS, SY.
      pose proof limit_eq as LE.
      assert (W : w' = (sm, ym) :: skipn (k - limit - c) w).
      { subst w'. replace (k - limit - c) with (S j0) by lia.
        clear - E. revert E. generalize w, j0. intros l n. revert l.
        induction n as [|n IHn]; intros [|p l] E; cbn in E |- *; try discriminate.
        - injection E as ->. reflexivity.
        - apply IHn. exact E. }
      cbn [sd_loop1]. replace (nb =? 0) with false by (symmetry; apply Nat.eqb_neq; lia).
      replace ((limit + S c + (nb - 1)) mod nb) with ((k - 1 - j0) mod nb).
      2: { replace (limit + S c + (nb - 1)) with ((k - 1 - j0) + 1 * nb) by lia.
           rewrite Nat.mod_add by lia. reflexivity. }
      rewrite SS, SY. replace (k - (limit + S c)) with j0 by lia.
      rewrite LR, LA. replace (j0 <? nb) with true by (symmetry; apply Nat.ltb_lt; lia). cbn [andb].
      set (r := if negb (neq (vdot ym sm) n0) then ndiv n1 (vdot ym sm) else n1).
      assert (R : r = curvature_weight sm ym).
      { unfold r, curvature_weight. destruct (neq (vdot ym sm) n0); reflexivity. }
      destruct (IH (vsub d (vscale (nmul r (vdot sm d)) ym)) (set_nth j0 r rho)
                  (set_nth j0 (nmul r (vdot sm d)) alpha)) as (rho' & alpha' & L & L1 & L2 & K & F);
        [lia|rewrite set_nth_length; exact LR|rewrite set_nth_length; exact LA|].
      exists rho', alpha'. rewrite L, W. cbn [fwd fst snd]. rewrite <- R.
      split; [reflexivity|split; [exact L1|split; [exact L2|split]]].
      + intros j J. destruct (K j ltac:(lia)) as [K1 K2]. rewrite K1, K2.
        rewrite !set_nth_other by lia. auto.
      + intros [|j] cc EC; cbn in EC.
        * injection EC as <-. rewrite Nat.add_0_r. destruct (K j0 ltac:(lia)) as [K1 K2].
          rewrite K1, K2. rewrite !set_nth_same by lia. auto.
        * destruct (F j cc EC) as [F1 F2]. replace (j0 + S j) with (k - limit - c + j) by lia. auto.
  Qed.

  Lemma firstn_snoc {A} : forall n (l : list A) a, nth_error l n = Some a -> firstn (S n) l = firstn n l ++ [a].
  Proof.
    induction n as [|n IH]; intros [|b l] a E; cbn in E; try discriminate.
    - injection E as ->. reflexivity.
    - cbn [firstn app]. f_equal. apply (IH l a E).
  Qed.

  Lemma loop2_ok (l : list (N * N)) rho alpha : length l = k - limit ->
    (forall j c, nth_error l j = Some c -> nth_error rho j = Some (fst c) /\ nth_error alpha j = Some (snd c)) ->
    forall cnt d, cnt <= k - limit ->
    sd_loop2 nb s y k (k - cnt) cnt rho alpha d = Some (bwd (firstn cnt w) (firstn cnt l) d).
  Proof.
    intros LL F. induction cnt as [|c IH]; intros d C; [reflexivity|].
    destruct (nth_error w c) as [p|] eqn:E.
    2: { apply nth_error_None in E. rewrite w_length in E. lia. }
    destruct (nth_error l c) as [cc|] eqn:EL.
    2: { apply nth_error_None in EL. lia. }
    destruct (slice c p E) as [SS SY]. destruct (F c cc EL) as [F1 F2].
    cbn [sd_loop2]. replace (nb =? 0) with false by (symmetry; apply Nat.eqb_neq; lia).
    replace (k - S c) with (k - 1 - c) by lia. rewrite SS, SY.
    pose proof limit_eq as LE.
    replace (k - (k - 1 - c) - 1) with c by lia. rewrite F1, F2.
    replace (S (k - 1 - c)) with (k - c) by lia.
    rewrite IH by lia. rewrite (firstn_snoc c w p E), (firstn_snoc c l cc EL).
    rewrite bwd_snoc by (rewrite !firstn_length; pose proof w_length as WL; rewrite firstn_length in WL; lia). reflexivity.
  Qed.

  Theorem search_direction_ok g gamma :
    search_direction nb g k gamma s y = Some (direction gamma w g).
  Proof.
    unfold search_direction. cbv zeta.
    destruct (loop1_ok (k - limit) g (repeat n0 nb) (repeat n0 nb) ltac:(lia)
                (repeat_length _ _) (repeat_length _ _)) as (rho' & alpha' & L & L1 & L2 & _ & F).
    rewrite L. rewrite Nat.sub_diag in *. cbn [skipn Nat.add] in *.
    replace (sd_loop2 nb s y k limit (k - limit)) with (sd_loop2 nb s y k (k - (k - limit)) (k - limit))
      by (f_equal; rewrite limit_eq; lia).
    rewrite (loop2_ok (snd (fwd w g)) rho' alpha'); [|rewrite fwd_length; apply w_length|exact F|lia].
    rewrite (firstn_all2 (snd (fwd w g))) by (rewrite fwd_length, w_length; lia).
    rewrite <- w_length at 1. rewrite firstn_all.
    unfold direction. rewrite two_loop_eq. reflexivity.
  Qed.

  Theorem choose_scaling_ok tol normF g :
    choose_scaling nb tol normF k g s y = Some (scaling tol normF w g).
  Proof.
    unfold choose_scaling, scaling. destruct (length h) as [|k'] eqn:K.
    - apply length_zero_iff_nil in K. rewrite K. cbn [rev]. rewrite firstn_nil. reflexivity.
    - replace (nb =? 0) with false by (symmetry; apply Nat.eqb_neq; lia).
      destruct w as [|[sm ym] w'] eqn:W.
      { pose proof w_length as WL. rewrite W, limit_eq in WL. cbn in WL. lia. }
      pose proof (slice 0 (sm, ym)) as SL. rewrite W in SL. destruct (SL eq_refl) as [A B].
      cbn [fst snd] in A, B. replace (length h - 1 - 0) with k' in A, B by lia. rewrite A, B. reflexivity.
  Qed.
  End Dir.

  Lemma updates_ok : forall (us : list (vec * vec * (vec * vec))) h s y, ring_ok h s y ->
    exists s' y', feed (update_basis nb) (length h) us s y = Some (s', y') /\ ring_ok (h ++ map difference us) s' y'.
  Proof.
    induction us as [|[[x xo] [g go]] us IH]; intros h s y R; cbn [feed map].
    - rewrite app_nil_r. eauto.
    - destruct (ring_update h s y x xo g go R) as (s1 & y1 & E & R1). rewrite E.
      replace (S (length h)) with (length (h ++ [(vsub x xo, vsub g go)])) by (rewrite app_length; cbn; lia).
      destruct (IH _ _ _ R1) as (s2 & y2 & E2 & R2). rewrite <- app_assoc in R2. eauto.
  Qed.

  Theorem updates_then_direction (us : list (vec * vec * (vec * vec))) s0 y0 : length s0 = nb -> length y0 = nb ->
    exists s y, feed (update_basis nb) 0 us s0 y0 = Some (s, y) /\
      (forall g gamma, search_direction nb g (length us) gamma s y =
         Some (direction gamma (firstn nb (rev (map difference us))) g)) /\
      (forall tol normF g, choose_scaling nb tol normF (length us) g s y =
         Some (scaling tol normF (firstn nb (rev (map difference us))) g)).
  Proof.
    intros A B. destruct (updates_ok us [] s0 y0 (ring_init s0 y0 A B)) as (s & y & E & R).
    exists s, y. split; [exact E|]. cbn [app] in R. rewrite <- (map_length difference us).
    split; intros; [apply search_direction_ok, R|apply choose_scaling_ok, R].
  Qed.
End Ring.
