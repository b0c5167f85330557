(** SVRG with batches of all the functions is gradient descent on their average. *)
From Coq Require Import List Arith Bool Reals Lra Lia Permutation.
From Verif.Base Require Import Num Vec Instances.
From Verif.Model Require Import Common VarRed SVRG.
From Verif.Spec Require Import SgdSpec Gradient ConvergeSpec VarRedSpec SarahSpec VrRateSpec SameSpec.
From Verif.Proof Require Import GradientProof NormProof VarRedProof SVRGProof SVRGReal VrRate VrPass.
Import ListNotations.
Local Open Scope R_scope.

Section Full.
  Variable mx : R.
  Notation RN := (RNum mx).
  Notation trace := (list (vev RN)).
  Variables (p : nat) (eta : R) (f : VFun RN) (cb : VCB RN) (gr : nat -> list R -> list R) (b : nat).
  Notation n := (vf_num f).
  Notation gF := (avg_grad p n gr).
  Hypothesis SS : shuffled_sum mx p f gr.
  Hypothesis GL : forall i x, (i < n)%nat -> length x = p -> length (gr i x) = p.
  Hypothesis Hn : (0 < n)%nat.
  Hypothesis Hb : (n <= b)%nat.
  Notation step := (fun x => vsub (N := RN) x (vscale (N := RN) eta (gF x))).

  (** every batch starts at the first function and has all of them *)
  Lemma all_of sh : forall (l : list (@vstep RN)), cyclic n b sh l -> Forall (fun t => t_f t = 0%nat /\ t_c t = n) l.
  Proof.
    induction l as [|t l IH]; intros [C Fl]; [constructor|].
    pose proof (Forall_inv Fl) as (P & M & _). pose proof (Forall_inv_tail Fl) as Fl'.
    assert (L0 : exists c, t_c t = S c) by (destruct (t_c t) as [|c]; [lia|eauto]). destruct L0 as [c Ec].
    cbn [flat_map map list_sum fold_right] in C.
    assert (Z : t_f t = 0%nat).
    { rewrite Ec in C. cbn [plus seq map app] in C. injection C as C0 _. rewrite C0. apply Nat.mod_0_l. lia. }
    assert (W : t_c t = n) by lia. constructor; [split; assumption|]. apply IH. split; [|exact Fl'].
    rewrite Z, W in C. change (fold_right Nat.add 0%nat (map t_c l)) with (list_sum (map t_c l)) in C.
    rewrite seq_app, map_app in C. apply (f_equal (skipn n)) in C.
    assert (SK : forall (u v : list nat), length u = n -> skipn n (u ++ v) = v).
    { intros u v E. rewrite <- E, skipn_app, skipn_all, Nat.sub_diag. reflexivity. }
    rewrite !SK in C by (rewrite ?map_length; apply seq_length). rewrite C.
    cbn [plus]. clear. generalize (vf_num f) as m. generalize (list_sum (map t_c l)) as k. intros k m.
    assert (H : forall k s, map (fun i => i mod m)%nat (seq (m + s) k) = map (fun i => i mod m)%nat (seq s k)).
    { clear. induction k as [|k IH]; intros s; [reflexivity|]. cbn [seq map]. rewrite plus_n_Sm, IH. f_equal.
      destruct m as [|m]; [reflexivity|]. rewrite <- (Nat.mul_1_l (S m)) at 1. rewrite Nat.add_comm. apply Nat.mod_add. lia. }
    specialize (H k 0%nat). rewrite Nat.add_0_r in H. exact H.
  Qed.

  Lemma whole j x : length x = p -> vf_grad f j x 0 n = sum_vec p (map (fun i => gr i x) (seq 0 n)).
  Proof.
    intros E. destruct (SS j) as (order & P & G). rewrite G by (auto; lia). cbn [skipn].
    rewrite <- (order_len mx f order P) at 1. rewrite firstn_all. apply sum_perm; [apply Permutation_map, P|].
    apply (grads_len mx p f gr GL Hn order); auto.
  Qed.
  Lemma sum_all_len x : length x = p -> length (sum_vec p (map (fun i => gr i x) (seq 0 n))) = p.
  Proof. intros E. apply sum_len. apply Forall_map, Forall_forall. intros k I. apply in_seq in I. apply GL; [lia|exact E]. Qed.
  Lemma gF_length x : length x = p -> length (gF x) = p.
  Proof. intros E. unfold avg_grad. rewrite map_length. apply sum_all_len, E. Qed.

  Lemma correction : forall (s r : list R), length s = length r ->
    vadd (N := RN) (map (fun a => a / INR n) s) (over_n (N := RN) n (vsub (N := RN) r s)) = map (fun a => a / INR n) r.
  Proof.
    unfold vadd, over_n, vsub. rewrite (nofnat_INR mx). induction s as [|a s IH]; intros [|c r] E; try discriminate; [reflexivity|].
    cbn. f_equal; [|apply IH; cbn in E; lia]. field. apply not_0_INR. lia.
  Qed.
  Lemma step_length x : length x = p -> length (step x) = p.
  Proof.
    intros E. transitivity (length x); [|exact E]. unfold vsub, vscale. pose proof (eq_trans (gF_length x E) (eq_sym E)) as G. revert G. generalize (gF x). clear.
    intros g G. assert (M : forall u v : list R, length u = length v -> length (map2 (nsub (n := RN)) u v) = length u).
    { clear. induction u as [|a u IH]; intros [|c v] H; try discriminate; [reflexivity|]. cbn. f_equal. apply IH. cbn in H. lia. }
    apply M. rewrite map_length. symmetry. exact G.
  Qed.

  Lemma inner_full w : length w = p -> forall l x, length x = p -> svrg_steps (N := RN) x (gF w) eta l -> Forall (usedg f w) l ->
    Forall (fun t => t_f t = 0%nat /\ t_c t = n) l -> map t_to l = orbit_of step (length l) x /\ length (last (map t_to l) x) = p.
  Proof.
    intros Lw. induction l as [|t l IH]; intros x Lx ST U A; [split; [reflexivity|exact Lx]|].
    cbn [svrg_steps] in ST. destruct ST as (Ex & Et & ST). destruct (Forall_inv U) as (j & G1 & G2 & _). pose proof (Forall_inv_tail U) as U'.
    destruct (Forall_inv A) as [Z W]. pose proof (Forall_inv_tail A) as A'.
    rewrite Ex, Z, W, whole in G1 by assumption. rewrite Z, W, whole in G2 by assumption.
    assert (E : t_to t = step x).
    { rewrite Et, G1, G2, W. unfold avg_grad at 1. rewrite correction; [reflexivity|]. rewrite !sum_all_len; auto. }
    rewrite E in ST. destruct (IH (step x) (step_length x Lx) ST U' A') as [B1 B2].
    cbn [map length orbit_of]. rewrite last_shift, E. split; [f_equal; exact B1|exact B2].
  Qed.

  Lemma orbit_app (g : list R -> list R) : forall k m x, orbit_of g (k + m) x = orbit_of g k x ++ orbit_of g m (last (orbit_of g k x) x).
  Proof. induction k as [|k IH]; intros m x; [reflexivity|]. cbn [plus orbit_of app]. rewrite IH, last_shift. reflexivity. Qed.
  Lemma orbit_last_app (g : list R -> list R) k m x : last (orbit_of g (k + m) x) x = last (orbit_of g m (last (orbit_of g k x) x)) (last (orbit_of g k x) x).
  Proof. revert x. induction k as [|k IH]; intros x; [reflexivity|]. cbn [plus orbit_of]. rewrite !last_shift. apply IH. Qed.

  Lemma pts_app (a c : trace) : vr_points (a ++ c) = vr_points a ++ vr_points c.
  Proof. unfold vr_points. apply flat_map_app. Qed.
  Lemma pts_evs x l : vr_points (evs_of (N := RN) x l) = [].
  Proof. induction l; [reflexivity|exact IHl]. Qed.
  Lemma pts_grs x l : vr_points (grs_of (N := RN) x l) = [].
  Proof. induction l; [reflexivity|exact IHl]. Qed.
  Lemma pts_rest (l : trace) : forallb abandoned l = true -> vr_points l = [].
  Proof. induction l as [|e l IH]; intros H; [reflexivity|]. cbn in H. apply andb_true_iff in H as [A B]. destruct e; try discriminate; exact (IH B). Qed.
  Lemma pts_steps (w : list R) e l : vr_points (flat_map (step_events (N := RN) w e) l) = map t_to l.
  Proof.
    induction l as [|t l IH]; [reflexivity|]. cbn [flat_map map]. rewrite pts_app, IH. unfold step_events. destruct (t_sh t); reflexivity.
  Qed.

  Lemma round_full inner shuffle j (r : @vround RN) : r_eta r = eta -> length (r_x r) = p ->
    svrg_round n b inner shuffle r -> good f b j (round_events r) ->
    length (r_end r) = p /\ exists k, vr_points (round_events r) = orbit_of step k (r_x r) /\ r_end r = last (orbit_of step k (r_x r)) (r_x r).
  Proof.
    intros ER LX (S1 & S2 & ST & CY & WI & _ & AB) G. unfold round_events in *.
    apply good_app in G as [_ G]. apply good_app in G as [G1 G]. rewrite shuf_evs, Nat.add_0_r in *.
    apply good_app in G as [G2 _]. rewrite shuf_grs, Nat.add_0_r in *.
    rewrite !pts_app, pts_evs, pts_grs, pts_steps, (pts_rest _ AB), app_nil_r. cbn [app].
    pose proof (good_grs _ _ _ G1) as GE. pose proof (steps_used _ _ _ _ G2) as U.
    assert (FU : r_full (N := RN) n r = gF (r_x r)).
    { unfold r_full. rewrite GE. unfold vtotal.
      destruct (@map _ (list RN) (fun q => vf_grad f j (r_x r) (fst q) (snd q)) (map fst (r_grads r))) as [|u0 r0] eqn:M.
      - exfalso. apply map_eq_nil in M. rewrite M in S2. destruct S2 as [Z _]. cbn in Z. destruct n; [lia|discriminate].
      - exact (pass_full mx p f gr b SS GL Hn j (r_x r) _ u0 r0 LX S2 M). }
    rewrite FU, ER in ST. destruct (inner_full (r_x r) LX (r_steps r) (r_x r) LX ST U (all_of _ _ CY)) as [E1 E2].
    split; [exact E2|]. exists (length (r_steps r)). unfold r_end. rewrite E1. auto.
  Qed.
  Lemma rounds_full inner shuffle (tol : RN) : forall rs j x last0 x' e' last' rest, length x = p ->
    svrg_rounds (N := RN) n b inner shuffle tol no_decay x tt eta last0 rs x' tt e' last' ->
    good f b j (flat_map round_events rs ++ rest) ->
    exists k, vr_points (flat_map round_events rs) = orbit_of step k x /\ x' = last (orbit_of step k x) x.
  Proof.
    induction rs as [|r rs IH]; intros j x last0 x' e' last' rest LX S G.
    - cbn in S. destruct S as (-> & _). exists 0%nat. split; reflexivity.
    - cbn [svrg_rounds] in S. destruct S as (E1 & E2 & S & _ & _ & S').
      cbn [flat_map] in *. rewrite <- app_assoc in G. apply good_app in G as [G1 G2].
      subst x. destruct (round_full _ _ _ _ E2 LX S G1) as [A1 (k & A2 & A3)].
      unfold no_decay in S'. cbn [fst snd] in S'. fold (@no_decay RN) in S'.
      destruct (IH _ _ _ _ _ _ _ A1 S' G2) as (m & B1 & B2). exists (k + m)%nat.
      rewrite pts_app, A2, B1, B2, A3. rewrite orbit_app, <- orbit_last_app, orbit_app. auto.
  Qed.

  Theorem svrg_full maxIterations (tol : RN) shuffle exact fuel inner (x : list R) r : watching mx cb -> length x = p ->
    svrg f cb b maxIterations tol shuffle exact no_decay fuel inner tt eta x = Ret r ->
    vr_points (vr_tr r) = orbit_of step (length (vr_points (vr_tr r))) x /\ vr_x r = last (vr_points (vr_tr r)) x.
  Proof.
    intros W LX RUN. apply svrg_ok in RUN; [|lia|lia]. destruct RUN as (REP & RG & CP & _).
    destruct REP as (EI & rs & t & last0 & ET & RO & _).
    pose proof (computed_comp mx f cb W _ CP) as C.
    assert (G : good f b 0 (flat_map round_events rs ++ tail_events (vr_x r) t ++ [VEnd (vr_x r)])).
    { rewrite ET in C, RG. split; [exact C|]. exact (Forall_inv_tail RG). }
    destruct (snd (fst (vr_st r))).
    destruct (rounds_full _ _ _ _ _ _ _ _ _ _ _ LX RO G) as (k & A & B).
    assert (PT : vr_points (vr_tr r) = orbit_of step k x).
    { rewrite ET. change (@VBegin RN x :: ?z) with ([@VBegin RN x] ++ z). rewrite !pts_app. unfold tail_events.
      rewrite !pts_app, !pts_evs, pts_grs. cbn [app]. change (vr_points [@VBegin RN x]) with (@nil (list R)). change (vr_points [VEnd (vr_x r)]) with (@nil (list R)).
      rewrite app_nil_r. exact A. }
    assert (OL : forall m z, length (orbit_of step m z) = m) by (clear; induction m as [|m IH]; intros z; cbn; [reflexivity|f_equal; apply IH]).
    rewrite PT, OL. auto.
  Qed.
End Full.
