(** The convergence rate of Frank-Wolfe with the line search on quadratic functions. *)
From Coq Require Import List Arith Bool ZArith Reals Lra Lia.
From Verif.Base Require Import Num Vec Instances.
From Verif.Model Require Import Common FrankWolfe.
From Verif.Spec Require Import CommonSpec GDSpec Gradient FWSpec ConvergeSpec FWLineSpec.
From Verif.Proof Require Import TraceLib GradientProof FWProof FWConvex SmoothProof FWConverge.
Import ListNotations.
Local Open Scope R_scope.

Section FW.
  Variable mx : R.
  Notation RN := (RNum mx).
  Variables (n : nat) (K : list R -> Prop) (f : list R -> R) (grad : list R -> list R).
  Hypothesis CK : convex_set n K.
  Hypothesis GR : forall x, K x -> gradient_at f x (grad x).
  Hypothesis CV : convex_on K f.
  Variables (lsMax : nat) (lsTol : R).

  Lemma along : forall (t : R) (a b : list R), vadd (N := RN) a (vscale (N := RN) t (vsub (N := RN) b a)) = segment_pt t a b.
  Proof.
    intros t. unfold vadd, vscale, vsub, segment_pt. induction a as [|u a IH]; intros [|v b]; cbn; try reflexivity. f_equal; [ring|apply IH].
  Qed.
  Lemma grad_length x : K x -> length (grad x) = n.
  Proof. intros Kx. destruct (GR x Kx) as [E _]. rewrite E. apply CK, Kx. Qed.
  (** the slope in the direction of s, at the point at distance t *)
  Definition slope (x s : list R) (t : R) : R := dotR (grad (segment_pt t x s)) s - dotR (grad (segment_pt t x s)) x.
  Lemma derivative_slope x s t : K x -> K s -> ls_derivative (N := RN) grad x (vsub (N := RN) s x) t = slope x s t.
  Proof.
    intros Kx Ks. unfold ls_derivative. etransitivity; [apply vdot_dotR|]. rewrite along. unfold slope. rewrite dotR_comm, dotR_vsub by (rewrite (proj1 CK _ Kx), (proj1 CK _ Ks); reflexivity).
    rewrite (dotR_comm s), (dotR_comm x). reflexivity.
  Qed.
  (** a point with a slope of zero, or of the right sign at an end, is the best of the segment *)
  Lemma best_of_segment x s t u : K x -> K s -> 0 <= t <= 1 -> 0 <= u <= 1 -> 0 <= (u - t) * slope x s t ->
    f (segment_pt t x s) <= f (segment_pt u x s).
  Proof.
    intros Kx Ks T U H. assert (LS : length x = length s) by (rewrite (proj1 CK _ Kx), (proj1 CK _ Ks); reflexivity).
    pose proof (proj2 CK t x s T Kx Ks) as Kt. pose proof (proj2 CK u x s U Kx Ks) as Ku.
    pose proof (tangent_lemma n K f CK _ _ (segment_pt u x s) CV (GR _ Kt) Kt Ku) as TG.
    rewrite (dot_segment u), (dot_segment t) in TG by exact LS. unfold slope in H. lra.
  Qed.

  Hypothesis AF : affine_on K grad.
  Hypothesis HM : (0 < lsMax)%nat.
  Hypothesis HT : 0 < lsTol.
  Lemma slope_affine x s t : K x -> K s -> 0 <= t <= 1 -> slope x s t = slope x s 0 + t * (slope x s 1 - slope x s 0).
  Proof.
    intros Kx Ks T. unfold slope. assert (LS : length x = length s) by (rewrite (proj1 CK _ Kx), (proj1 CK _ Ks); reflexivity).
    assert (LG : length (grad x) = length (grad s)) by (rewrite !grad_length by assumption; reflexivity).
    rewrite !(AF _ x s) by (assumption || lra). rewrite !(dotR_comm (segment_pt _ _ _)), !dot_segment by exact LG. ring.
  Qed.
  (** the line search finds the best point of the segment, unless the slope is below its tolerance *)
  Lemma exact_search x s : K x -> K s ->
    let z := fst (line_search (N := RN) lsMax lsTol f grad x s) in
    (forall t, 0 <= t <= 1 -> f z <= f (segment_pt t x s)) \/ (z = x /\ - lsTol < slope x s 0).
  Proof.
    intros Kx Ks z. assert (LS : length x = length s) by (rewrite (proj1 CK _ Kx), (proj1 CK _ Ks); reflexivity).
    unfold z, line_search. rewrite !derivative_slope by assumption. cbn [nle n0 n1 nlt nsub RNum].
    destruct (Rleb_spec 0 (slope x s 0)) as [A|A].
    { left. intros t T. cbn [fst]. rewrite <- (segment_0 x s LS) at 1. apply best_of_segment; try assumption; [lra|]. apply Rmult_le_pos; lra. }
    destruct (Rleb_spec (slope x s 1) 0) as [B|B].
    { left. intros t T. cbn [fst]. rewrite <- (segment_1 x s LS) at 1. apply best_of_segment; try assumption; [lra|].
      replace ((t - 1) * slope x s 1) with ((1 - t) * - slope x s 1) by ring. apply Rmult_le_pos; lra. }
    destruct (Rltb_spec (slope x s 1 - slope x s 0) lsTol) as [C|C].
    { right. cbn [fst]. split; [reflexivity|]. lra. }
    left. intros t T. destruct lsMax as [|k]; [lia|]. cbn [ls_secant nlt nsub ndiv n0 RNum].
    set (d0 := slope x s 0) in *. set (d1 := slope x s 1) in *.
    destruct (Rltb_spec (d1 - d0) 0) as [Q|_]; [lra|].
    set (g := - d0 / (d1 - d0)).
    assert (G : 0 < g < 1).
    { unfold g. split; [apply Rdiv_lt_0_compat; lra|]. apply (Rmult_lt_reg_r (d1 - d0)); [lra|]. unfold Rdiv. rewrite Rmult_assoc, Rinv_l by lra. lra. }
    assert (EC : clamp01 (N := RN) (0 - d0 / (d1 - d0)) = g).
    { replace (0 - d0 / (d1 - d0)) with g by (unfold g; field; lra). unfold clamp01. cbn [nlt n0 n1 RNum].
      destruct (Rltb_spec g 0); [lra|]. destruct (Rltb_spec 1 g); [lra|reflexivity]. }
    rewrite EC. rewrite !derivative_slope by assumption.
    assert (S0 : slope x s g = 0).
    { rewrite slope_affine by (assumption || lra). fold d0 d1. unfold g. field. lra. }
    rewrite S0. cbn [nabs RNum]. rewrite Rabs_R0. destruct (Rltb_spec 0 lsTol); [|lra]. cbn [fst].
    rewrite combine_segment. apply best_of_segment; try assumption; [lra|]. rewrite S0. lra.
  Qed.
  Lemma search_in x s : K x -> K s -> K (fst (line_search (N := RN) lsMax lsTol f grad x s)).
  Proof.
    intros Kx Ks. assert (LS : length x = length s) by (rewrite (proj1 CK _ Kx), (proj1 CK _ Ks); reflexivity).
    destruct (line_search_on_segment mx lsMax lsTol f grad x s LS) as (t & T & E & _). rewrite E. now apply CK.
  Qed.
  Lemma search_descends x s : K x -> K s -> f (fst (line_search (N := RN) lsMax lsTol f grad x s)) <= f x.
  Proof.
    intros Kx Ks. assert (LS : length x = length s) by (rewrite (proj1 CK _ Kx), (proj1 CK _ Ks); reflexivity).
    destruct (exact_search x s Kx Ks) as [H|[H _]]; [|rewrite H; lra]. specialize (H 0 ltac:(lra)). rewrite segment_0 in H by exact LS. exact H.
  Qed.

  Variables (L D2 : R) (lmo : list R -> list R).
  Hypothesis SM : smooth_on K L f grad.
  Hypothesis HL : 0 <= L.
  Hypothesis HD : forall a b, K a -> K b -> sqdist a b <= D2.
  Hypothesis LM : forall g, length g = n -> minimises K g (lmo g).
  Variables (maxIterations : nat) (tolerance : R) (cb : CB RN (list R) (list R)).
  Hypothesis CBG : forall h x v g, cs_grad cb h x v g = g.
  Variables (fuel : nat) (x0 : list R) (r : Res RN (list R) (list R)).
  Hypothesis K0 : K x0.
  Notation rule := (rule_linesearch (N := RN) lsMax lsTol f grad).
  Hypothesis RUN : frank_wolfe (N := RN) maxIterations tolerance (fun x => (f x, grad x)) lmo rule cb fuel x0 = Ret r.
  Notation es := (evalgs (o_tr r)).
  Notation pt := (fw_point (N := RN) lmo rule x0 es).

  Lemma fwl_entries : forall k e, nth_error es k = Some e ->
    (f (e_at (N := RN) e), grad (e_at (N := RN) e)) = (e_val (N := RN) e, e_grad (N := RN) e) /\ e_at (N := RN) e = pt k /\ snd e = e_grad (N := RN) e.
  Proof.
    intros k e E. pose proof (fw_ok (N := RN) maxIterations tolerance (fun x => (f x, grad x)) lmo rule cb x0 fuel) as P. rewrite RUN in P.
    destruct P as (_ & GD & _). destruct (GD k e E) as (A & B & h & C). rewrite CBG in C. auto.
  Qed.
  Lemma fwl_next k e : nth_error es k = Some e ->
    pt (S k) = fst (line_search (N := RN) lsMax lsTol f grad (e_at (N := RN) e) (lmo (grad (e_at (N := RN) e)))).
  Proof.
    intros E. destruct (fwl_entries k e E) as (A & _ & C). injection A as _ A.
    unfold fw_point. assert (FN : firstn (S k) es = firstn k es ++ [e]).
    { revert E. generalize es. clear. intros l. revert k. induction l as [|a l IH]; intros [|k] E; try discriminate; cbn in *; [injection E as <-; reflexivity|].
      f_equal. apply IH, E. }
    etransitivity; [exact (f_equal (fun l => rule (rev (map (fw_pair (N := RN) lmo) l))) FN)|].
    cbn beta. rewrite map_app, rev_app_distr. cbn [map rev app rule_linesearch]. unfold fw_pair at 1.
    apply (f_equal fst), (f_equal (line_search (N := RN) lsMax lsTol f grad (e_at (N := RN) e))), (f_equal lmo). exact (eq_trans C (eq_sym A)).
  Qed.

  Variables (y : list R) (M : R).
  Hypothesis Ky : K y.
  Hypothesis M1 : 2 * (L * D2) <= M.
  Hypothesis M2 : 3 * (f x0 - f y) <= M.
  Definition close (k : nat) (v : R) : Prop := (INR k + 3) * (v - f y) <= M \/ v - f y <= lsTol.

  Lemma fwl_points : forall k, (k <= length es)%nat -> K (pt k) /\ close k (f (pt k)) /\ forall j, (j <= k)%nat -> f (pt k) <= f (pt j).
  Proof.
    induction k as [|k IH]; intros Lk.
    - split; [exact K0|]. split; [left; cbn; lra|]. intros j Hj. replace j with 0%nat by lia. lra.
    - destruct IH as (Kp & B & DS); [lia|]. destruct (nth_error es k) as [e|] eqn:E; [|apply nth_error_None in E; lia].
      destruct (fwl_entries k e E) as (_ & P & _). rewrite (fwl_next k e E), P. set (x := pt k) in *.
      destruct (LM (grad x) (grad_length x Kp)) as [Ks Ms]. set (s := lmo (grad x)) in *.
      assert (LS : @length R x = @length R s) by exact (eq_trans (proj1 CK _ Kp) (eq_sym (proj1 CK _ Ks))).
      pose proof (search_descends x s Kp Ks) as DE.
      split; [apply search_in; assumption|]. split.
      + destruct (exact_search x s Kp Ks) as [H|[H HS]].
        * destruct B as [B|B]; [|right; lra]. left. pose proof (pos_INR k) as Pk.
          assert (T : 0 <= 2 / (INR k + 3) <= 1).
          { split; [apply Rmult_le_pos; [lra|]; left; apply Rinv_0_lt_compat; lra|]. apply Rmult_le_reg_r with (INR k + 3); [lra|].
            unfold Rdiv. rewrite Rmult_assoc, Rinv_l by lra. lra. }
          apply (recurrence (L * D2) M (f x - f y)); [exact M1| |exact B|].
          -- assert (0 <= L * D2); [|lra]. apply Rmult_le_pos; [exact HL|]. pose proof (HD y y Ky Ky). rewrite sqdist_0 in *. assumption.
          -- eapply Rle_trans; [|exact (fw_one n K L D2 f grad lmo CK SM HL CV HD LM x y _ Kp Ky T)].
             specialize (H _ T). fold s. lra.
        * right. rewrite H. unfold slope in HS. rewrite segment_0 in HS by exact LS.
          pose proof (tangent_lemma n K f CK x (grad x) y CV (GR x Kp) Kp Ky) as TG. specialize (Ms y Ky). lra.
      + intros j Hj. destruct (Nat.eq_dec j (S k)) as [->|N].
        * rewrite (fwl_next k e E), P. fold x s. lra.
        * specialize (DS j ltac:(lia)). lra.
  Qed.

  Theorem fw_line_rate :
    (forall j k e e', (j <= k)%nat -> nth_error es j = Some e -> nth_error es k = Some e' -> e_val (N := RN) e' <= e_val (N := RN) e) /\
    (forall k e, nth_error es k = Some e -> close k (e_val (N := RN) e)) /\
    f (o_x r) <= f x0 /\ close (length (steps_to (o_tr r))) (f (o_x r)).
  Proof.
    assert (LT : forall k e, nth_error es k = Some e -> (k <= length es)%nat).
    { intros k e E. apply Nat.lt_le_incl, nth_error_Some. rewrite E. discriminate. }
    split; [|split].
    - intros j k e e' H E E'. destruct (fwl_entries j e E) as (A & B & _). injection A as A _. destruct (fwl_entries k e' E') as (A' & B' & _). injection A' as A' _.
      rewrite <- A, B, <- A', B'. apply fwl_points; eauto.
    - intros k e E. destruct (fwl_entries k e E) as (A & B & _). injection A as A _. rewrite <- A, B. apply fwl_points. eauto.
    - pose proof (fw_ok (N := RN) maxIterations tolerance (fun x => (f x, grad x)) lmo rule cb x0 fuel) as P. rewrite RUN in P.
      destruct P as (_ & GD & _ & _ & _ & EN).
      assert (G : forall m, (m <= length es)%nat -> o_x r = pt m -> length (steps_to (o_tr r)) = m ->
        f (o_x r) <= f x0 /\ close (length (steps_to (o_tr r))) (f (o_x r))).
      { intros m Lm X S. destruct (fwl_points m Lm) as (_ & B & D). specialize (D 0%nat ltac:(lia)). 
        change (T RN) with R in *. rewrite X. split; [exact D|]. replace (length (steps_to (o_tr r))) with m by (symmetry; exact S). exact B. }
      destruct EN as [(_ & X & S & _)|(before & e & E & _ & _ & X & S)].
      + apply (G (length es)); [lia|exact X|]. etransitivity; [exact (f_equal (@length _) S)|]. rewrite map_length, seq_length. reflexivity.
      + assert (LB : (length before <= length es)%nat) by (pose proof (f_equal (@length _) E) as Q; rewrite app_length in Q; cbn in Q; change (T RN) with R in *; lia).
        apply (G (length before)); [exact LB| |].
        * etransitivity; [exact X|]. apply fwl_entries. etransitivity; [exact (f_equal (fun l => nth_error l (length before)) E)|].
          rewrite nth_error_app2, Nat.sub_diag by lia. reflexivity.
        * etransitivity; [exact (f_equal (@length _) S)|]. rewrite map_length, seq_length. reflexivity.
  Qed.
End FW.
