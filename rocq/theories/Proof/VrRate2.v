(** Convergence of SVRG and SARAH: the rounds. *)
From Coq Require Import List Arith Bool Reals Lra Lia Permutation.
From Verif.Base Require Import Num Vec Instances.
From Verif.Model Require Import Common VarRed SVRG Sarah.
From Verif.Spec Require Import SgdSpec Gradient ConvergeSpec VarRedSpec SarahSpec VrRateSpec.
From Verif.Proof Require Import SmoothProof GradientProof GDConverge NormProof VarRedProof SVRGProof SarahProof SVRGReal VrRate VrPass.
Import ListNotations.
Local Open Scope R_scope.

Section Conv.
  Variable mx : R.
  Notation RN := (RNum mx).
  Notation trace := (list (vev RN)).
  Variables (p : nat) (L mu eta : R) (f : VFun RN) (cb : VCB RN) (gr : nat -> list R -> list R) (F : list R -> R) (y : list R).
  Variables (b : nat).
  Notation n := (vf_num f).
  Notation gF := (avg_grad p n gr).
  Hypothesis SS : shuffled_sum mx p f gr.
  Hypothesis ES : each_smooth p n L gr.
  Hypothesis SM : smooth_on (space p) L F gF.
  Hypothesis SC : strongly_convex_on (space p) mu F.
  Hypothesis HM : 0 < mu <= L.
  Hypothesis HE : 0 < eta.
  Hypothesis Hy : length y = p.
  Hypothesis MN : forall z, length z = p -> F y <= F z.
  Hypothesis Hn : (0 < n)%nat.
  Hypothesis Hb : (0 < b)%nat.

  (** *** Batches *)
  Lemma gr_len i x : (i < n)%nat -> length x = p -> length (gr i x) = p.
  Proof. intros H E. exact (proj1 (ES i x x H E E)). Qed.
  Lemma batch_len j x i c : length x = p -> (i + c <= n)%nat -> length (vf_grad f j x i c) = p.
  Proof. exact (VrPass.batch_len mx p f gr SS gr_len Hn j x i c). Qed.
  Lemma batch_dst j x z i c : length x = p -> length z = p -> (i + c <= n)%nat ->
    dst (vf_grad f j x i c) (vf_grad f j z i c) <= INR c * (L * dst x z).
  Proof.
    intros E1 E2 R1. destruct (SS j) as (order & P & G). rewrite !G by assumption.
    pose proof (order_len mx f order P) as Lo.
    assert (Lc : length (firstn c (skipn i order)) = c) by (rewrite firstn_length, skipn_length, Lo; lia).
    rewrite <- Lc at 3. assert (PD : 0 <= L * dst x z) by (apply Rmult_le_pos; [lra|apply dst_nonneg]).
    apply sum_dst; [exact PD|]. intros k I. apply part_in in I. pose proof (order_lt mx f Hn order P k I) as K.
    destruct (ES k x z K E1 E2) as [A1 A2]. split; [exact A1|]. split; [apply gr_len; assumption|].
    apply dst_le; [exact PD|]. pose proof (dst_sq x z). nra.
  Qed.

  Lemma pass_full j x (l : list (nat * nat)) (u : list R) (r : list (list R)) : length x = p -> split_of n b l ->
    @map _ (list R) (fun q => vf_grad f j x (fst q) (snd q)) l = u :: r -> over_n (N := RN) n (fold_left (vadd (N := RN)) r u) = gF x.
  Proof. exact (VrPass.pass_full mx p f gr b SS gr_len Hn j x l u r). Qed.
  Notation good := (good f b).
  Notation usedg := (usedg f).

  Notation q := (1 - eta * mu / 4).

  (** *** SVRG *)
  Lemma svrg_inner w : length w = p -> forall l k x, length x = p ->
    svrg_steps (N := RN) x (gF w) eta l -> Forall (usedg w) l ->
    dst x (along w (gF w) (- (INR k * eta))) <= err L eta k * dst w y ->
    length (last (map t_to l) x) = p /\
    dst (last (map t_to l) x) (along w (gF w) (- (INR (k + length l) * eta))) <= err L eta (k + length l) * dst w y.
  Proof.
    intros Lw. pose proof (gF_len p L F gF SM w Lw) as Lg.
    induction l as [|t l IH]; intros k x Lx ST U B.
    - cbn. rewrite Nat.add_0_r. auto.
    - cbn [svrg_steps] in ST. destruct ST as (Ex & Et & ST). destruct (Forall_inv U) as (j & G1 & G2 & C0 & Rg). pose proof (Forall_inv_tail U) as U'. subst x.
      pose proof (away mx p L mu eta F gF y SM HM HE Hy MN k w (t_x t) Lw Lx B) as A.
      pose proof (batch_dst j (t_x t) w (t_f t) (t_c t) Lx Lw Rg) as BD.
      destruct (correct mx p (gF w) (t_g' t) (t_h' t) (t_c t) (L * dst (t_x t) w)) as [LV DV]; auto.
      1,2: rewrite ?G1, ?G2; apply batch_len; assumption.
      { rewrite G1, G2. exact BD. }
      set (V := vadd (N := RN) (gF w) (over_n (N := RN) (t_c t) (vsub (N := RN) (t_g' t) (t_h' t)))) in *.
      assert (ET : t_to t = along (t_x t) V (- eta)) by (rewrite Et; apply (vsub_along mx p y Hy); exact (eq_trans LV (eq_sym Lx))).
      assert (Lt : length (t_to t) = p) by (rewrite ET; exact (eq_trans (along_length _ _ _ (eq_trans LV (eq_sym Lx))) Lx)).
      assert (B' : dst (t_to t) (along w (gF w) (- (INR (S k) * eta))) <= err L eta (S k) * dst w y).
      { rewrite ET. eapply (move_bound p L eta F gF y SM HE); eauto. apply Rmult_le_compat_l; [lra|exact A]. }
      specialize (IH (S k) (t_to t) Lt ST U' B'). cbn [length]. rewrite <- plus_n_Sm.
      cbn [map]. rewrite last_shift. exact IH.
  Qed.

  Lemma q_range m : (0 < m)%nat -> INR m * (4 * eta * (L * L)) <= mu -> 0 <= q.
  Proof.
    intros M H. assert (M1 : 1 <= INR m) by (change 1 with (INR 1); apply le_INR; lia).
    assert (P : 0 <= 4 * eta * (L * L)) by (apply Rmult_le_pos; [lra|apply Rle_0_sqr]).
    assert (E1 : 4 * eta * (L * L) <= L) by nra.
    assert (E2 : eta * L <= / 4) by (apply Rmult_le_reg_r with L; [lra|]; lra).
    assert (eta * mu <= eta * L) by (apply Rmult_le_compat_l; lra). lra.
  Qed.
  Lemma rep_steps (w : list R) e l : reported mx (flat_map (step_events (N := RN) w e) l) = length l.
  Proof.
    induction l as [|t l IH]; [reflexivity|]. cbn [flat_map length]. rewrite reported_app, IH. unfold step_events. destruct (t_sh t); reflexivity.
  Qed.
  Lemma used_pos w l : Forall (usedg w) l -> Forall (fun t : @vstep RN => 0 < t_c t)%nat l.
  Proof. apply Forall_impl. intros t (j & _ & _ & C & _). exact C. Qed.

  Lemma svrg_round_rate inner shuffle j (r : @vround RN) : INR inner * (4 * eta * (L * L)) <= mu ->
    r_eta r = eta -> length (r_x r) = p -> svrg_round n b inner shuffle r -> good j (round_events r) ->
    length (r_end r) = p /\ dst (r_end r) y <= q ^ (reported mx (round_events r)) * dst (r_x r) y.
  Proof.
    intros IN ER LX (S1 & S2 & ST & CY & WI & _ & AB) G. unfold round_events in *.
    apply good_app in G as [_ G]. apply good_app in G as [G1 G]. rewrite shuf_evs, Nat.add_0_r in *.
    apply good_app in G as [G2 _]. rewrite shuf_grs, Nat.add_0_r in *.
    rewrite !reported_app, rep_evs, rep_grs, rep_steps, (rep_rest _ AB), Nat.add_0_r. cbn [plus].
    pose proof (good_grs _ _ _ G1) as GE. pose proof (steps_used _ _ _ _ G2) as U.
    assert (FU : r_full (N := RN) n r = gF (r_x r)).
    { unfold r_full. rewrite GE. unfold vtotal.
      destruct (@map _ (list RN) (fun q => vf_grad f j (r_x r) (fst q) (snd q)) (map fst (r_grads r))) as [|u0 r0] eqn:M.
      - exfalso. apply map_eq_nil in M. rewrite M in S2. destruct S2 as [Z _]. cbn in Z. destruct n; [lia|discriminate].
      - exact (pass_full j (r_x r) _ u0 r0 LX S2 M). }
    rewrite FU, ER in ST. pose proof (gF_len p L F gF SM _ LX) as Lg.
    destruct (svrg_inner (r_x r) LX (r_steps r) 0 (r_x r) LX ST U) as [E1 E2].
    { cbn [INR]. rewrite Rmult_0_l, Ropp_0. rewrite (along_0 (r_x r) (gF (r_x r)) (eq_trans Lg (eq_sym LX))). unfold err. cbn.
      assert (Z : dst (r_x r) (r_x r) = 0); [|rewrite Z; lra].
      apply Rle_antisym; [|apply dst_nonneg]. apply dst_le; [lra|]. rewrite sqdist_0. lra. }
    cbn [plus] in E2. split; [exact E1|]. apply (round_end mx p L mu eta F gF y SM SC HM HE Hy MN (length (r_steps r)) (r_x r)); auto.
    pose proof (within_len _ _ WI (used_pos _ _ U)) as Wl. apply le_INR in Wl.
    assert (0 <= 4 * eta * (L * L)) by (apply Rmult_le_pos; [lra|apply Rle_0_sqr]). nra.
  Qed.
  Lemma svrg_rounds_rate inner shuffle (tol : RN) : (0 < inner)%nat -> INR inner * (4 * eta * (L * L)) <= mu ->
    forall rs j x last x' e' last' rest, length x = p ->
    svrg_rounds (N := RN) n b inner shuffle tol no_decay x tt eta last rs x' tt e' last' ->
    good j (flat_map round_events rs ++ rest) ->
    length x' = p /\ dst x' y <= q ^ (reported mx (flat_map round_events rs)) * dst x y.
  Proof.
    intros I0 IN. induction rs as [|r rs IH]; intros j x last x' e' last' rest LX S G.
    - cbn in S. destruct S as (-> & _). cbn. split; [exact LX|lra].
    - cbn [svrg_rounds] in S. destruct S as (E1 & E2 & S & _ & _ & S').
      cbn [flat_map] in *. rewrite <- app_assoc in G. apply good_app in G as [G1 G2].
      subst x. destruct (svrg_round_rate _ _ _ _ IN E2 LX S G1) as [A1 A2].
      unfold no_decay in S'. cbn [fst snd] in S'. fold (@no_decay RN) in S'.
      destruct (IH _ _ _ _ _ _ _ A1 S' G2) as [B1 B2]. split; [exact B1|].
      rewrite reported_app, Nat.add_comm, pow_add, Rmult_assoc.
      eapply Rle_trans; [exact B2|]. apply Rmult_le_compat_l; [apply pow_le; eapply q_range; eassumption|exact A2].
  Qed.

  Theorem svrg_rate maxIterations tol shuffle exact fuel inner x r : watching mx cb -> length x = p ->
    INR (match inner with O => n | _ => inner end) * (4 * eta * (L * L)) <= mu ->
    svrg f cb b maxIterations tol shuffle exact no_decay fuel inner tt eta x = Ret r ->
    sqdist (vr_x r) y <= (q ^ reported mx (vr_tr r)) ^ 2 * sqdist x y.
  Proof.
    intros W LX IN RUN. apply svrg_ok in RUN; [|assumption|assumption]. destruct RUN as (REP & RG & CP & _).
    destruct REP as (EI & rs & t & last & ET & RO & _). rewrite <- EI in IN.
    assert (I0 : (0 < fst (fst (vr_st r)))%nat) by (rewrite EI; destruct inner; lia).
    pose proof (computed_comp mx f cb W _ CP) as C.
    assert (G : good 0 (flat_map round_events rs ++ tail_events (vr_x r) t ++ [VEnd (vr_x r)])).
    { rewrite ET in C, RG. split; [exact C|]. inversion RG; assumption. }
    destruct (snd (fst (vr_st r))).
    destruct (svrg_rounds_rate _ _ _ I0 IN _ _ _ _ _ _ _ _ LX RO G) as [A B].
    rewrite ET. change (VBegin x :: ?z) with ([VBegin x] ++ z). rewrite !reported_app. unfold tail_events.
    rewrite !reported_app, !rep_evs, rep_grs. change (reported mx [VEnd (vr_x r)]) with 0%nat. change (reported mx [VBegin x]) with 0%nat.
    cbn [plus]. rewrite !Nat.add_0_r. rewrite <- (dst_sq (vr_x r)), <- (dst_sq x).
    pose proof (dst_nonneg (vr_x r) y). pose proof (dst_nonneg x y).
    assert (0 <= q ^ reported mx (flat_map round_events rs)) by (apply pow_le; eapply q_range; eassumption). cbn [pow]. nra.
  Qed.

  (** *** SARAH *)
  Lemma dst_self u : dst u u = 0.
  Proof. apply Rle_antisym; [|apply dst_nonneg]. apply dst_le; [lra|]. rewrite sqdist_0. lra. Qed.
  Lemma nrm_near u v : length u = length v -> nrm u <= nrm v + dst u v.
  Proof.
    intros E. replace u with (along (diff u v) v 1) at 1.
    - eapply Rle_trans; [apply nrm_along; rewrite diff_length; congruence|]. rewrite Rabs_R1. unfold dst. lra.
    - revert v E. induction u as [|a u IH]; intros [|c v] E; try discriminate; cbn; [reflexivity|]. rewrite IH by (cbn in E; lia). f_equal. lra.
  Qed.
  Lemma dst_step u v : length v = length u -> dst (along u v (- eta)) u <= eta * nrm v.
  Proof.
    intros E. apply dst_le; [apply Rmult_le_pos; [lra|apply nrm_nonneg]|]. rewrite sqdist_along by exact E. rewrite <- nrm_sq. right. ring.
  Qed.
  Variables (norm : list R -> R) (early : list R -> R -> bool).

  Lemma sarah_inner (w : list R) (vN : R) : length w = p -> forall l k j (prev : option (list R)) (x v : list R), length x = p -> length v = p -> (1 <= k)%nat ->
    good j (sarah_events (N := RN) eta prev l) -> sarah_steps (N := RN) eta early vN prev x v l ->
    dst x (along w (gF w) (- (INR k * eta))) <= err L eta k * dst w y ->
    dst v (gF w) <= L * (((1 + eta * L) ^ (k - 1) - 1) * dst w y) ->
    (match prev with None => True | Some u => length u = p /\ x = along u v (- eta) end) ->
    length (last (map (fun s => t_to (m_t s)) l) x) = p /\
    dst (last (map (fun s => t_to (m_t s)) l) x) (along w (gF w) (- (INR (k + length l) * eta))) <= err L eta (k + length l) * dst w y.
  Proof.
    intros Lw. pose proof (gF_len p L F gF SM w Lw) as Lg. pose proof (dst_nonneg w y) as D0.
    pose proof (grad_le mx p L mu F gF y SM HM Hy MN w Lw) as GL.
    assert (PA : 0 < eta * L) by (apply Rmult_lt_0_compat; lra).
    induction l as [|s l IH]; intros k j prev x v Lx Lv K1 G ST B VB PR.
    - cbn. rewrite Nat.add_0_r. auto.
    - cbn [sarah_steps] in ST. destruct ST as (Ex & E0 & EV & Et & _ & _ & ST).
      cbn [sarah_events] in G. apply good_app in G as [_ G].
      change (?a :: ?r) with ([a] ++ r) in G. apply good_app in G as [[(C1 & C2 & _) I1] G].
      inversion I1 as [|? ? I2 _]. cbn in I2. destruct I2 as [[C0 _] Rg].
      set (j1 := (j + shuffles _)%nat) in *. change (j1 + shuffles [_])%nat with (j1 + 0)%nat in G. rewrite Nat.add_0_r in G.
      assert (GP : (match prev with None => True | Some u => t_h' (m_t s) = vf_grad f j1 u (t_f (m_t s)) (t_c (m_t s)) end) /\
        exists j2, good j2 (sarah_events (N := RN) eta (Some (t_x (m_t s))) l)).
      { apply good_app in G as [G1 G2]. apply good_app in G2 as [_ G2]. split; [|eexists; exact G2].
        destruct prev as [u|]; [|exact I]. destruct G1 as [(D1 & D2 & _) _]. rewrite D2. exact D1. }
      destruct GP as (HG & j2 & G2). subst x. rename Lx into Lx0.
      assert (Lgr : length (t_g' (m_t s)) = p) by (rewrite C2, C1; apply batch_len; assumption).
      assert (P0 : 0 <= (1 + eta * L) ^ (k - 1)) by (apply pow_le; lra).
      assert (PK : (1 + eta * L) ^ k = (1 + eta * L) * (1 + eta * L) ^ (k - 1)) by (rewrite tech_pow_Rmult; f_equal; lia).
      assert (DG : length (t_h' (m_t s)) = p /\
        dst (t_g' (m_t s)) (t_h' (m_t s)) <= INR (t_c (m_t s)) * (eta * L * (1 + eta * L) ^ (k - 1) * (L * dst w y))).
      { destruct prev as [u|].
        - destruct PR as [Lu Exu]. rewrite HG. split; [apply batch_len; assumption|]. rewrite C2, C1.
          eapply Rle_trans; [apply batch_dst; assumption|]. apply Rmult_le_compat_l; [apply pos_INR|].
          assert (D1 : dst (t_x (m_t s)) u <= eta * nrm v) by (rewrite Exu; apply dst_step; congruence).
          assert (N1 : nrm v <= (1 + eta * L) ^ (k - 1) * (L * dst w y)).
          { eapply Rle_trans; [apply (nrm_near v (gF w)); congruence|]. lra. }
          assert (eta * nrm v <= eta * ((1 + eta * L) ^ (k - 1) * (L * dst w y))) by (apply Rmult_le_compat_l; lra).
          assert (L * dst (t_x (m_t s)) u <= L * (eta * ((1 + eta * L) ^ (k - 1) * (L * dst w y)))) by (apply Rmult_le_compat_l; lra). lra.
        - rewrite (E0 eq_refl). split; [exact Lgr|]. rewrite dst_self. apply Rmult_le_pos; [apply pos_INR|].
          apply Rmult_le_pos; [apply Rmult_le_pos; lra|]. apply Rmult_le_pos; lra. }
      destruct DG as [Lh DG].
      destruct (correct mx p v (t_g' (m_t s)) (t_h' (m_t s)) (t_c (m_t s)) _ Lv Lgr Lh C0 DG) as [LV DV].
      rewrite <- EV in LV, DV.
      assert (DW : dst (m_v s) (gF w) <= L * (((1 + eta * L) ^ k - 1) * dst w y)).
      { eapply Rle_trans; [apply (dst_tri (m_v s) v (gF w)); [exact (eq_trans LV (eq_sym Lv))|congruence]|]. rewrite PK. lra. }
      assert (ET : t_to (m_t s) = along (t_x (m_t s)) (m_v s) (- eta)) by (rewrite Et; apply (vsub_along mx p y Hy); exact (eq_trans LV (eq_sym Lx0))).
      assert (Lt : length (t_to (m_t s)) = p) by (rewrite ET; exact (eq_trans (along_length _ _ _ (eq_trans LV (eq_sym Lx0))) Lx0)).
      assert (B' : dst (t_to (m_t s)) (along w (gF w) (- (INR (S k) * eta))) <= err L eta (S k) * dst w y).
      { rewrite ET. exact (move_bound p L eta F gF y SM HE k w (t_x (m_t s)) (m_v s) _ Lw Lx0 LV B DW (Rle_refl _)). }
      specialize (IH (S k) j2 (Some (t_x (m_t s))) (t_to (m_t s)) (m_v s) Lt LV ltac:(lia) G2 ST B').
      rewrite Nat.sub_succ, Nat.sub_0_r in IH. specialize (IH DW (conj Lx0 ET)).
      cbn [length]. rewrite <- plus_n_Sm. cbn [map]. rewrite last_shift. exact IH.
  Qed.

  Lemma rep_sarah : forall l (prev : option (list R)), (reported mx (sarah_events (N := RN) eta prev l) <= length l)%nat.
  Proof.
    induction l as [|s l IH]; intros prev; [cbn; lia|]. cbn [sarah_events length]. rewrite !reported_app. specialize (IH (Some (t_x (m_t s)))).
    destruct (t_sh (m_t s)), prev, (m_told s); cbn -[reported sarah_events] in *; unfold reported in *; cbn [filter length] in *; lia.
  Qed.
  Lemma q_le1 : q <= 1.
  Proof. assert (0 <= eta * mu) by (apply Rmult_le_pos; lra). lra. Qed.
  Lemma sarah_round_rate inner shuffle j (r : @sround RN) : INR (S inner) * (4 * eta * (L * L)) <= mu ->
    length (y_x r) = p -> sarah_round (N := RN) n b inner shuffle eta norm early r -> good j (sround_events (N := RN) eta r) ->
    length (y_end (N := RN) n eta r) = p /\ dst (y_end (N := RN) n eta r) y <= q ^ (reported mx (sround_events (N := RN) eta r)) * dst (y_x r) y.
  Proof.
    intros IN LX (S1 & S2 & ST & CY & WI & _ & AB) G. unfold sround_events in *.
    apply good_app in G as [_ G]. apply good_app in G as [G1 G]. rewrite shuf_evs, Nat.add_0_r in *.
    apply good_app in G as [G2 G]. rewrite Nat.add_0_r in G2, G. apply good_app in G as [G3 _].
    pose proof (rep_sarah (y_steps r) None) as RS.
    rewrite !reported_app, rep_evs, rep_grs, rep_grq, (rep_rest _ AB), Nat.add_0_r. cbn [plus].
    pose proof (good_grs _ _ _ G1) as GE1. pose proof (good_grq _ _ _ G2) as GE2.
    assert (FU : y_v (N := RN) n r = gF (y_x r)).
    { unfold y_v. apply (pass_full j (y_x r) (map fst (y_first r :: y_grads r))); [exact LX|exact S2|].
      cbn [map] in *. f_equal; [symmetry; exact (f_equal (hd []) GE1)|symmetry; exact GE2]. }
    pose proof (gF_len p L F gF SM _ LX) as Lg. pose proof (dst_nonneg (y_x r) y) as D0.
    assert (ES0 : y_start (N := RN) n eta r = along (y_x r) (gF (y_x r)) (- eta)).
    { unfold y_start. rewrite FU. apply (vsub_along mx p y Hy). exact (eq_trans Lg (eq_sym LX)). }
    assert (Ls : length (y_start (N := RN) n eta r) = p) by (rewrite ES0; exact (eq_trans (along_length _ _ _ (eq_trans Lg (eq_sym LX))) LX)).
    unfold y_end. rewrite FU in ST.
    destruct (sarah_inner (y_x r) (norm (gF (y_x r))) LX (y_steps r) 1 _ None (y_start (N := RN) n eta r) (gF (y_x r)) Ls Lg (le_n 1) G3 ST) as [E1 E2].
    { rewrite ES0. cbn [INR]. rewrite Rmult_1_l, dst_self. unfold err. cbn [INR pow]. nra. }
    { rewrite dst_self. cbn. nra. }
    { exact I. }
    split; [exact E1|].
    assert (CP : Forall (fun t : @vstep RN => 0 < t_c t)%nat (map m_t (y_steps r))) by (eapply Forall_impl; [|exact (proj2 CY)]; intros t (H & _); exact H).
    pose proof (within_len _ _ WI CP) as Wl. rewrite map_length in Wl.
    assert (P4 : 0 <= 4 * eta * (L * L)) by (apply Rmult_le_pos; [lra|apply Rle_0_sqr]).
    assert (IN' : INR (1 + length (y_steps r)) * (4 * eta * (L * L)) <= mu).
    { assert (INR (1 + length (y_steps r)) <= INR (S inner)) by (apply le_INR; lia). nra. }
    pose proof (round_end mx p L mu eta F gF y SM SC HM HE Hy MN _ (y_x r) _ LX E1 IN' E2) as RE.
    eapply Rle_trans; [exact RE|]. apply Rmult_le_compat_r; [exact D0|].
    assert (Q0 : 0 <= q) by (eapply (q_range (S inner)); [lia|exact IN]).
    match goal with |- _ <= _ ^ ?k => assert (RS' : (k <= length (y_steps r))%nat) by exact RS; generalize dependent k end. intros k RS'.
    replace (1 + length (y_steps r))%nat with (k + (1 + length (y_steps r) - k))%nat by lia.
    rewrite pow_add. rewrite <- (Rmult_1_r (q ^ k)) at 2. apply Rmult_le_compat_l; [apply pow_le; exact Q0|].
    pose proof q_le1 as Q1. clear -Q0 Q1. induction (_ - _)%nat as [|z IH]; cbn; [lra|]. assert (0 <= q ^ z) by (apply pow_le; exact Q0). nra.
  Qed.
  Lemma sarah_rounds_rate inner shuffle (tol : RN) : INR (S inner) * (4 * eta * (L * L)) <= mu ->
    forall rs j x last x' last' rest, length x = p ->
    sarah_rounds (N := RN) n b inner shuffle eta norm early tol x last rs x' last' ->
    good j (flat_map (sround_events (N := RN) eta) rs ++ rest) ->
    length x' = p /\ dst x' y <= q ^ (reported mx (flat_map (sround_events (N := RN) eta) rs)) * dst x y.
  Proof.
    intros IN. induction rs as [|r rs IH]; intros j x last x' last' rest LX S G.
    - cbn in S. destruct S as (-> & _). cbn. split; [exact LX|lra].
    - cbn [sarah_rounds] in S. destruct S as (E1 & S & _ & _ & S').
      cbn [flat_map] in *. rewrite <- app_assoc in G. apply good_app in G as [G1 G2].
      subst x. destruct (sarah_round_rate _ _ _ _ IN LX S G1) as [A1 A2].
      destruct (IH _ _ _ _ _ _ A1 S' G2) as [B1 B2]. split; [exact B1|].
      rewrite reported_app, Nat.add_comm, pow_add, Rmult_assoc.
      eapply Rle_trans; [exact B2|]. apply Rmult_le_compat_l; [apply pow_le; eapply q_range; [|exact IN]; apply Nat.lt_0_succ|exact A2].
  Qed.

  Theorem sarah_rate maxIterations (tol : RN) shuffle exact fuel inner (x : list R) r : watching mx cb -> length x = p ->
    INR (S (match inner with O => n | _ => inner end)) * (4 * eta * (L * L)) <= mu ->
    sarah (N := RN) f cb b maxIterations tol shuffle exact eta norm early fuel inner x = Ret r ->
    sqdist (vr_x r) y <= (q ^ reported mx (vr_tr r)) ^ 2 * sqdist x y.
  Proof.
    intros W LX IN RUN. apply sarah_ok in RUN; [|assumption|assumption]. destruct RUN as (REP & EI & RG & CP & _).
    destruct REP as (rs & t & last & ET & RO & _). rewrite <- EI in IN.
    pose proof (computed_comp mx f cb W _ CP) as C.
    assert (G : good 0 (flat_map (sround_events (N := RN) eta) rs ++ u_events (vr_x r) t ++ evs_of (vr_x r) (u_final t) ++ [VEnd (vr_x r)])).
    { rewrite ET in C, RG. split; [exact C|]. inversion RG; assumption. }
    destruct (sarah_rounds_rate _ _ _ IN _ _ _ _ _ _ _ LX RO G) as [A B].
    rewrite ET. change (@VBegin RN x :: ?z) with ([@VBegin RN x] ++ z). rewrite !reported_app. unfold u_events.
    rewrite !reported_app, !rep_evs. change (reported mx [VEnd (vr_x r)]) with 0%nat. change (reported mx [@VBegin RN x]) with 0%nat.
    assert (UZ : reported mx match u_grads t with None => [] | Some (p0, l0) => grs_of (N := RN) (vr_x r) [p0] ++ grq_of (vr_x r) l0 end = 0%nat).
    { destruct (u_grads t) as [[p0 l0]|]; [|reflexivity]. rewrite reported_app, rep_grs, rep_grq. reflexivity. }
    rewrite UZ. cbn [plus]. rewrite !Nat.add_0_r. rewrite <- (dst_sq (vr_x r)), <- (dst_sq x).
    pose proof (dst_nonneg (vr_x r) y). pose proof (dst_nonneg x y).
    assert (0 <= q ^ reported mx (flat_map (sround_events (N := RN) eta) rs)) by (apply pow_le; eapply q_range; [|exact IN]; apply Nat.lt_0_succ). cbn [pow]. nra.
  Qed.
End Conv.
