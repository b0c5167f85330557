(** The passes of [Model.Sgd]'s loop, and how close they come to the minimiser. *)
From Coq Require Import List Arith Bool Reals Lra Lia Permutation.
From Verif.Base Require Import Num Vec Instances Loop Size.
From Verif.Model Require Import Common Sgd Updates SgdPolicies.
From Verif.Spec Require Import Gradient ConvergeSpec FWSpec VrRateSpec SgdRateSpec.
From Verif.Proof Require Import SmoothProof GDConverge NormProof SgdRate.
Import ListNotations.
Local Open Scope R_scope.

Lemma vanilla_along mx : forall u (x g : list R) h, length u = length x -> length g = length x ->
  length (fst (sgd_vanilla (N := RNum mx) u x h g)) = length x /\ snd (sgd_vanilla (N := RNum mx) u x h g) = along x g (- h).
Proof.
  unfold sgd_vanilla. induction u as [|a u IH]; intros [|b x] [|c g] h E1 E2; try discriminate; [cbn; auto|].
  cbn in E1, E2. destruct (IH x g h) as [A B]; [lia|lia|]. cbn. destruct (vec_up (N := RNum mx) vanilla_up u x h g). cbn in *.
  split; [lia|]. rewrite B. f_equal. lra.
Qed.

Section Floor.
  Variable mx : R.
  Notation RN := (RNum mx).
  Variables (p : nat) (L mu h : R) (gr : nat -> list R -> list R) (F : list R -> R) (y x0 : list R).
  Variables (batch max : nat) (tol : R) (shuffle exact : bool).
  Variables (f : SepFun RN (list R) (list R)) (cb : Callbacks RN (list R) (list R)).
  Notation n := (sf_num f).
  Notation c := (plain_sgd mx batch max tol shuffle exact).
  Hypothesis SUM : sgd_sum mx p f gr.
  Hypothesis W : watches cb.
  Hypothesis Hb : (0 < batch)%nat.
  Hypothesis ES : each_smooth p n L gr.
  Hypothesis SM : smooth_on (space p) L F (avg_grad p n gr).
  Hypothesis SC : strongly_convex_on (space p) mu F.
  Hypothesis HM : 0 < mu <= L.
  Hypothesis HE : 0 < h.
  Hypothesis Hn : (0 < n)%nat.
  Hypothesis Hy : length y = p.
  Hypothesis MN : forall z, length z = p -> F y <= F z.
  Hypothesis SMALL : 8 * (h * INR n) * (L * L) <= mu.
  Hypothesis L0 : length x0 = p.
  Notation S0 := (disagreement n gr y).
  Definition bnd (e : nat) : R := floor_bound n L mu h S0 (dst x0 y) e.
  Definition fin (e : nat) (x : list R) : Prop := length x = p /\ dst x y <= 5 / 4 * bnd e + 2 * (h * S0).
  Definition seen (tr : list (event RN (list R) (list R))) : Prop :=
    forall x e o, In (EndEpoch x e o) tr -> length x = p /\ dst x y <= bnd e.
  Notation state := (st RN (list R) (list R) (list unit) unit).
  Definition going (s : state) : Prop :=
    exists order w, Permutation order (seq 0 n) /\
      (forall x b k, length x = p -> (b + k <= n)%nat ->
         snd (sf_evalgrad f (s_shuf s) x b k) = sum_vec p (map (fun i => gr i x) (firstn k (skipn b order)))) /\
      mid p n L h gr order w (s_cf s) (s_x s) /\ (s_cf s < n)%nat /\ dst w y <= bnd (passes (s_tr s)).
  Definition good (s : state) : Prop :=
    length (s_u s) = p /\ s_step s = h /\ s_epoch s = S (passes (s_tr s)) /\ (s_i s <= actual_max c)%nat /\
    seen (s_tr s) /\ fin (passes (s_tr s)) (s_x s) /\ ((s_i s < actual_max c)%nat -> going s).
  Definition left (r : exit (N := RN) (X := list R) (G := list R) (U := list unit) (D := unit)) : Prop :=
    match r with
    | Xloop s | Xret s => seen (s_tr s) /\ fin (passes (s_tr s)) (s_x s)
    | Xub => True
    end.
  Lemma bnd_nonneg e : 0 <= bnd e.
  Proof.
    unfold bnd, floor_bound. pose proof (q_range n L mu h HM HE Hn SMALL) as Q. pose proof (S0_nonneg n gr y) as Z. pose proof (dst_nonneg x0 y).
    assert (0 <= (1 - h * INR n * mu / 4) ^ e) by (apply pow_le; lra).
    assert (0 <= 8 * h * L * S0 / mu) by (apply Rmult_le_pos; [repeat apply Rmult_le_pos; lra|apply Rlt_le, Rinv_0_lt_compat; lra]).
    assert (0 <= (1 - h * INR n * mu / 4) ^ e * dst x0 y) by (apply Rmult_le_pos; lra). lra.
  Qed.
  Lemma fin_of e x : length x = p -> dst x y <= bnd e -> fin e x.
  Proof. intros E B. split; [exact E|]. pose proof (bnd_nonneg e). pose proof (S0_nonneg n gr y). assert (0 <= h * S0) by (apply Rmult_le_pos; lra). lra. Qed.
  Lemma fresh shuf (x : list R) e : length x = p -> dst x y <= bnd e ->
    exists order w, Permutation order (seq 0 n) /\
      (forall x b k, length x = p -> (b + k <= n)%nat ->
         snd (sf_evalgrad f shuf x b k) = sum_vec p (map (fun i => gr i x) (firstn k (skipn b order)))) /\
      mid p n L h gr order w 0 x /\ (0 < n)%nat /\ dst w y <= bnd e.
  Proof.
    intros E B. destruct (SUM shuf) as [order [P Q]]. exists order, x. split; [exact P|]. split; [exact Q|]. split; [|split; [exact Hn|exact B]].
    exact (mid_start p n L h gr y Hn Hy order x E).
  Qed.
  Lemma body_good s : good s -> match body c f cb s with inl s' => good s' | inr r => left r end.
  Proof.
    intros (Lu & Es & Ee & Ei & Sn & Fi & Go). unfold body.
    destruct (s_i s <? actual_max c)%nat eqn:B1; cbn [andb negb]; [|split; assumption]. apply Nat.ltb_lt in B1.
    destruct (s_term s) eqn:B2; cbn [andb negb]; [split; assumption|]. destruct (Go B1) as (order & w & PO & GR & M & Cf & Bw). clear Go.
    set (k := effective_batch c f s). assert (K : (0 < k /\ s_i s + k <= actual_max c /\ s_cf s + k <= n)%nat) by (unfold k, effective_batch; cbn [c_batch plain_sgd]; lia).
    clearbody k. destruct K as (K1 & K2 & K3). assert (Lx : length (s_x s) = p) by apply M.
    specialize (GR (s_x s) (s_cf s) k Lx K3) as GE. destruct (sf_evalgrad f (s_shuf s) (s_x s) (s_cf s) k) as [obj g] eqn:EG. cbn [snd] in GE.
    set (tr1 := EvalGrad (s_x s) (s_cf s) k obj g :: s_tr s). rewrite (W tr1 g). cbn [c_up plain_sgd c_dp].
    assert (Lg : length g = p).
    { subst g. apply sum_len. apply (gs_len p n L gr ES); [exact Lx|]. apply (used_part p n y Hn Hy order PO). }
    destruct (vanilla_along mx (s_u s) (s_x s) g (s_step s) ltac:(congruence) ltac:(congruence)) as [V1 V2].
    destruct (sgd_vanilla (N := RN) (s_u s) (s_x s) (s_step s) g) as [u' x'] eqn:EV. cbn [fst snd] in V1, V2. unfold sgd_no_decay.
    rewrite Es, GE in V2.
    pose proof (mid_step p n L mu h gr y ES HM HE Hn Hy SMALL order PO w (s_cf s) k (s_x s) M K3) as M'. rewrite <- V2 in M'.
    assert (Lx' : length x' = p) by apply M'.
    replace (n =? 0)%nat with false by (symmetry; apply Nat.eqb_neq; lia).
    set (e := passes (s_tr s)) in *.
    assert (Fx : fin e x').
    { split; [exact Lx'|]. pose proof (mid_any p n L mu h gr y ES HM HE Hn Hy SMALL order PO w (s_cf s + k) x' M'). lra. }
    cbn [s_cf]. destruct ((s_cf s + k) mod n =? 0)%nat eqn:B3.
    - apply Nat.eqb_eq in B3. assert (CN : (s_cf s + k)%nat = n).
      { destruct (Nat.eq_dec (s_cf s + k) n) as [Q|Q]; [exact Q|]. rewrite Nat.mod_small in B3 by lia. lia. }
      rewrite CN in M'.
      pose proof (pass_end mx p n L mu h gr F y ES SM SC HM HE Hn Hy MN SMALL order PO w x' e (dst x0 y) M' Bw) as PE. fold (floor_bound n L mu h S0 (dst x0 y) (S e)) in PE. fold (bnd (S e)) in PE.
      assert (Sn' : forall o, seen (EndEpoch x' (S e) o :: Step x' :: tr1)).
      { intros o z i v [Q|[Q|[Q|Q]]]; [injection Q as <- <- _|discriminate|discriminate|exact (Sn z i v Q)]. auto. }
      unfold epoch_end. cbn [s_x s_epoch s_overall s_tr s_term s_i s_cf s_last s_u s_d s_step s_shuf]. rewrite Ee. fold e.
      set (o := ndiv _ _). specialize (Sn' o).
      destruct (_ || _); [split; [exact Sn'|exact (fin_of (S e) x' Lx' PE)]|].
      destruct (nlt _ _); [split; [exact Sn'|exact (fin_of (S e) x' Lx' PE)]|].
      unfold good, going. cbn [s_x s_epoch s_overall s_tr s_term s_i s_cf s_last s_u s_d s_step s_shuf].
      match goal with |- context [passes ?t] => set (tr := t); assert (PT : passes tr = S e) by (unfold tr; destruct (c_shuffle c); reflexivity);
        assert (ST : seen tr) by (unfold tr; destruct (c_shuffle c); intros z i v; [intros [Q|[Q|Q]]|intros [Q|Q]]; try discriminate; exact (Sn' z i v Q)) end.
      rewrite PT. split; [congruence|]. split; [exact Es|]. split; [reflexivity|]. split; [exact K2|]. split; [exact ST|]. split; [exact (fin_of (S e) x' Lx' PE)|].
      intros Lt. replace (s_i s + k =? actual_max c)%nat with false by (symmetry; apply Nat.eqb_neq; lia). cbn [negb]. apply fresh; assumption.
    - apply Nat.eqb_neq in B3. assert (CN : (s_cf s + k < n)%nat).
      { destruct (Nat.eq_dec (s_cf s + k) n) as [Q|Q]; [|lia]. rewrite Q, Nat.mod_same in B3 by lia. lia. }
      unfold good, going. cbn [s_x s_epoch s_overall s_tr s_term s_i s_cf s_last s_u s_d s_step s_shuf].
      change (passes (Step x' :: tr1)) with e. split; [congruence|]. split; [exact Es|]. split; [exact Ee|]. split; [exact K2|].
      split. { intros z i v [Q|[Q|Q]]; [discriminate|discriminate|exact (Sn z i v Q)]. }
      split; [exact Fx|]. intros _. exists order, w. split; [exact PO|]. split; [exact GR|]. auto.
  Qed.
  Lemma exact_seen : forall fuel shuf x i acc tr v tr', exact_loop c f fuel shuf x i acc tr = Some (v, tr') -> seen tr -> seen tr' /\ passes tr' = passes tr.
  Proof.
    induction fuel as [|fuel IH]; intros shuf x i acc tr v tr' E Z; cbn [exact_loop] in E.
    - destruct (i <? n)%nat; [discriminate|]. injection E as _ <-. auto.
    - destruct (i <? n)%nat; [|injection E as _ <-; auto]. apply IH in E; [exact E|]. intros z j o [Q|Q]; [discriminate|exact (Z z j o Q)].
  Qed.
  Lemma passes_rev tr : passes (N := RN) (X := list R) (G := list R) (rev tr) = passes tr.
  Proof.
    unfold passes. assert (G : forall g : event RN (list R) (list R) -> bool, length (filter g (rev tr)) = length (filter g tr)); [|apply G].
    intros g. induction tr as [|a l IH]; [reflexivity|]. cbn [rev filter]. rewrite filter_app, app_length, IH. cbn. destruct (g a); cbn; lia.
  Qed.
  Theorem sgd_floor fuel r : optimize_with c f cb fuel (sgd_vanilla_init (N := RN) x0) tt h x0 = Return r ->
    seen (r_trace r) /\ fin (passes (r_trace r)) (r_x r).
  Proof.
    intros Run. unfold optimize_with in Run.
    assert (I : good (init cb x0 (sgd_vanilla_init (N := RN) x0) tt h)).
    { unfold good, going, init. cbn [s_x s_epoch s_overall s_tr s_term s_i s_cf s_last s_u s_d s_step s_shuf].
      match goal with |- context [passes ?t] => change (passes t) with O end.
      assert (B0 : dst x0 y <= bnd 0).
      { unfold bnd, floor_bound. cbn [pow]. pose proof (S0_nonneg n gr y).
        assert (0 <= 8 * h * L * S0 / mu) by (apply Rmult_le_pos; [repeat apply Rmult_le_pos; lra|apply Rlt_le, Rinv_0_lt_compat; lra]). lra. }
      split; [unfold sgd_vanilla_init; rewrite map_length; exact L0|]. split; [reflexivity|]. split; [reflexivity|]. split; [lia|].
      split. { intros z i o [Q|[Q|[]]]; discriminate. }
      split; [exact (fin_of 0 x0 L0 B0)|]. intros _. apply fresh; assumption. }
    pose proof (loop_inv_done _ good left body_good fuel (init cb x0 (sgd_vanilla_init (N := RN) x0) tt h)) as LI.
    destruct (loop (body c f cb) fuel (init cb x0 (sgd_vanilla_init (N := RN) x0) tt h)) as [s|e] eqn:EL; [discriminate|].
    specialize (LI e I eq_refl).
    assert (FN : forall s v tr, finish (U := list unit) (D := unit) s v tr = r -> seen tr -> fin (passes tr) (s_x s) -> seen (r_trace r) /\ fin (passes (r_trace r)) (r_x r)).
    { intros s v tr <- Z1 Z2. unfold finish. cbn [r_trace r_x]. split.
      - intros z i o Q. apply in_rev in Q. destruct Q as [Q|Q]; [discriminate|exact (Z1 z i o Q)].
      - rewrite passes_rev. exact Z2. }
    destruct e as [s|s|]; [| |discriminate]; destruct LI as [Z1 Z2].
    - destruct (c_exact c).
      + destruct (exact_loop c f fuel (s_shuf s) (s_x s) 0 n0 (s_tr s)) as [[v tr]|] eqn:EX; [|discriminate]. injection Run as Run.
        destruct (exact_seen _ _ _ _ _ _ _ _ EX Z1) as [Z3 Z4]. apply (FN s v tr Run Z3). rewrite Z4. exact Z2.
      + injection Run as Run. exact (FN s _ _ Run Z1 Z2).
    - injection Run as Run. exact (FN s _ _ Run Z1 Z2).
  Qed.
End Floor.
