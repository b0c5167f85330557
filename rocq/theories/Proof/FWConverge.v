(** The convergence rate of Frank-Wolfe with the classic rule. *)
From Coq Require Import List Arith Bool ZArith Reals Lra Lia.
From Verif.Base Require Import Num Vec Instances.
From Verif.Model Require Import Common FrankWolfe.
From Verif.Spec Require Import CommonSpec GDSpec Gradient FWSpec ConvergeSpec.
From Verif.Proof Require Import TraceLib FWProof FWConvex SmoothProof.
Import ListNotations.
Local Open Scope R_scope.

Lemma dot_segment t : forall g a b, length a = length b -> dotR g (segment_pt t a b) = (1 - t) * dotR g a + t * dotR g b.
Proof. unfold segment_pt. induction g as [|u g IH]; intros [|v a] [|w b] E; try discriminate; cbn; try lra. rewrite IH by (cbn in E; lia). lra. Qed.
Lemma sqdist_segment t : forall a b, length a = length b -> sqdist (segment_pt t a b) a = t * t * sqdist b a.
Proof. unfold segment_pt. induction a as [|v a IH]; intros [|w b] E; try discriminate; cbn; try lra. rewrite IH by (cbn in E; lia). lra. Qed.

Section FW.
  Variable mx : R.
  Notation RN := (RNum mx).
  Variables (n : nat) (K : list R -> Prop) (L D2 : R) (f : list R -> R) (grad : list R -> list R) (lmo : list R -> list R).
  Hypothesis CK : convex_set n K.
  Hypothesis SM : smooth_on K L f grad.
  Hypothesis HL : 0 <= L.
  Hypothesis CV : convex_on K f.
  Hypothesis HD : forall a b, K a -> K b -> sqdist a b <= D2.
  Hypothesis LM : forall g, length g = n -> minimises K g (lmo g).

  Lemma fw_one x y t : K x -> K y -> 0 <= t <= 1 ->
    f (segment_pt t x (lmo (grad x))) - f y <= (1 - t) * (f x - f y) + t * t * (L * D2) / 2.
  Proof.
    intros Kx Ky T. destruct CK as [CL CC]. destruct (proj1 SM x Kx) as [GL _].
    assert (GN : length (grad x) = n) by (rewrite GL; apply CL, Kx).
    destruct (LM (grad x) GN) as [Ks Ms]. set (s := lmo (grad x)) in *.
    assert (LS : length x = length s) by (rewrite (CL x Kx), (CL s Ks); reflexivity).
    pose proof (descent_lemma n K f grad CK L x (segment_pt t x s) HL SM Kx (CC t x s T Kx Ks)) as D.
    rewrite dot_segment, sqdist_segment in D by exact LS.
    pose proof (tangent_lemma n K f CK x (grad x) y CV (proj1 SM x Kx) Kx Ky) as TG.
    specialize (Ms y Ky). pose proof (HD s x Ks Kx) as DD.
    assert (A : t * (dotR (grad x) s - dotR (grad x) x) <= t * (f y - f x)) by (apply Rmult_le_compat_l; lra).
    assert (B : L / 2 * (t * t * sqdist s x) <= t * t * (L * D2) / 2).
    { replace (L / 2 * (t * t * sqdist s x)) with (t * t * L / 2 * sqdist s x) by lra.
      replace (t * t * (L * D2) / 2) with (t * t * L / 2 * D2) by lra. apply Rmult_le_compat_l; [|exact DD].
      assert (0 <= t * t * L) by (apply Rmult_le_pos; [apply Rmult_le_pos|]; lra). lra. }
    lra.
  Qed.

  (** the recurrence h' <= (1 - 2/(k+3)) h + 2 C / (k+3)^2 *)
  Lemma recurrence C M h h' k : 2 * C <= M -> 0 <= M -> (INR k + 3) * h <= M ->
    h' <= (1 - 2 / (INR k + 3)) * h + 2 / (INR k + 3) * (2 / (INR k + 3)) * C / 2 -> (INR (S k) + 3) * h' <= M.
  Proof.
    intros MC M0 H H'. rewrite S_INR. pose proof (pos_INR k) as P. set (q := INR k) in *.
    assert (Q : (q + 3) * (q + 3) * h' <= (q + 1) * ((q + 3) * h) + 2 * C).
    { eapply Rle_trans; [apply Rmult_le_compat_l; [nra|exact H']|]. right. field. lra. }
    assert (Q2 : (q + 1) * ((q + 3) * h) <= (q + 1) * M) by (apply Rmult_le_compat_l; lra).
    assert (Q3 : (q + 3) * (q + 3) * h' <= (q + 2) * M) by lra.
    apply Rmult_le_reg_l with ((q + 3) * (q + 3)); [nra|].
    replace ((q + 3) * (q + 3) * ((q + 1 + 3) * h')) with ((q + 4) * ((q + 3) * (q + 3) * h')) by ring.
    eapply Rle_trans; [apply Rmult_le_compat_l; [lra|exact Q3]|]. nra.
  Qed.

  Variables (maxIterations : nat) (tolerance : R) (cb : CB RN (list R) (list R)).
  Hypothesis CBG : forall h x v g, cs_grad cb h x v g = g.
  Variables (fuel : nat) (x0 : list R) (r : Res RN (list R) (list R)).
  Hypothesis K0 : K x0.
  Hypothesis RUN : frank_wolfe (N := RN) maxIterations tolerance (fun x => (f x, grad x)) lmo (rule_classic (N := RN)) cb fuel x0 = Ret r.
  Notation es := (evalgs (o_tr r)).
  Notation pt := (fw_point (N := RN) lmo (rule_classic (N := RN)) x0 es).

  Lemma fw_entries : forall k e, nth_error es k = Some e ->
    (f (e_at (N := RN) e), grad (e_at (N := RN) e)) = (e_val (N := RN) e, e_grad (N := RN) e) /\ e_at (N := RN) e = pt k /\ snd e = e_grad (N := RN) e.
  Proof.
    intros k e E. pose proof (fw_ok (N := RN) maxIterations tolerance (fun x => (f x, grad x)) lmo (rule_classic (N := RN)) cb x0 fuel) as P. rewrite RUN in P.
    destruct P as (_ & GD & _). destruct (GD k e E) as (A & B & h & C). rewrite CBG in C. auto.
  Qed.
  Lemma fw_next k e : nth_error es k = Some e ->
    pt (S k) = segment_pt (2 / (INR k + 3)) (e_at (N := RN) e) (lmo (grad (e_at (N := RN) e))).
  Proof.
    intros E. destruct (fw_entries k e E) as (A & _ & C). injection A as _ A.
    unfold fw_point. assert (FN : firstn (S k) es = firstn k es ++ [e]).
    { revert E. generalize es. clear. intros l. revert k. induction l as [|a l IH]; intros [|k] E; try discriminate; cbn in *; [injection E as <-; reflexivity|].
      f_equal. apply IH, E. }
    assert (LK : length (firstn k es) = k) by (apply firstn_length_le, Nat.lt_le_incl, nth_error_Some; rewrite E; discriminate).
    etransitivity; [exact (f_equal (fun l => rule_classic (N := RN) (rev (map (fw_pair (N := RN) lmo) l))) FN)|].
    cbn beta. rewrite map_app, rev_app_distr. cbn [map rev app rule_classic]. unfold fw_pair at 1.
    rewrite combine_segment. apply (f_equal3 segment_pt); [|reflexivity|].
    - cbn [length ndiv nofZ nadd RNum]. rewrite rev_length, map_length. change (T RN) with R in *. rewrite LK, <- INR_IZR_INZ, S_INR. f_equal. lra.
    - apply (f_equal lmo). exact (eq_trans C (eq_sym A)).
  Qed.

  Variables (y : list R) (M : R).
  Hypothesis Ky : K y.
  Hypothesis M1 : 2 * (L * D2) <= M.
  Hypothesis M2 : 3 * (f x0 - f y) <= M.

  Lemma D2_nonneg : 0 <= L * D2.
  Proof. apply Rmult_le_pos; [exact HL|]. pose proof (HD y y Ky Ky). rewrite sqdist_0 in *. assumption. Qed.
  Lemma fw_points : forall k, (k <= length es)%nat -> K (pt k) /\ (INR k + 3) * (f (pt k) - f y) <= M.
  Proof.
    induction k as [|k IH]; intros Lk.
    - split; [exact K0|]. cbn. lra.
    - destruct IH as [Kp B]; [lia|]. destruct (nth_error es k) as [e|] eqn:E; [|apply nth_error_None in E; lia].
      destruct (fw_entries k e E) as (_ & P & _). rewrite (fw_next k e E), P.
      pose proof (pos_INR k) as Pk.
      assert (T : 0 <= 2 / (INR k + 3) <= 1).
      { split; [apply Rmult_le_pos; [lra|]; left; apply Rinv_0_lt_compat; lra|]. apply Rmult_le_reg_r with (INR k + 3); [lra|].
        unfold Rdiv. rewrite Rmult_assoc, Rinv_l by lra. lra. }
      destruct (proj1 SM _ Kp) as [GL _].
      split.
      + apply (proj2 CK); [exact T|exact Kp|]. apply LM. rewrite GL. apply CK, Kp.
      + apply (recurrence (L * D2) M (f (pt k) - f y)); [exact M1| |exact B|apply fw_one; assumption].
        pose proof D2_nonneg. lra.
  Qed.
  Theorem fw_rate : (forall k e, nth_error es k = Some e -> (INR k + 3) * (e_val (N := RN) e - f y) <= M) /\
    (INR (length (steps_to (o_tr r))) + 3) * (f (o_x r) - f y) <= M.
  Proof.
    split.
    - intros k e E. destruct (fw_entries k e E) as (A & B & _). injection A as A _. rewrite <- A, B. apply fw_points.
      apply Nat.lt_le_incl, nth_error_Some. rewrite E. discriminate.
    - pose proof (fw_ok (N := RN) maxIterations tolerance (fun x => (f x, grad x)) lmo (rule_classic (N := RN)) cb x0 fuel) as P. rewrite RUN in P.
      destruct P as (_ & GD & _ & _ & _ & EN).
      assert (G : forall m, (m <= length es)%nat -> o_x r = pt m -> length (steps_to (o_tr r)) = m ->
        (INR (length (steps_to (o_tr r))) + 3) * (f (o_x r) - f y) <= M).
      { intros m Lm X S. destruct (fw_points m Lm) as [_ B]. eapply Rle_trans; [|exact B]. right. f_equal; [f_equal; f_equal; exact S|f_equal; f_equal; exact X]. }
      destruct EN as [(_ & X & S & _)|(before & e & E & _ & _ & X & S)].
      + apply (G (length es)); [lia|exact X|]. etransitivity; [exact (f_equal (@length _) S)|]. rewrite map_length, seq_length. reflexivity.
      + assert (LB : (length before <= length es)%nat) by (pose proof (f_equal (@length _) E) as Q; rewrite app_length in Q; cbn in Q; change (T RN) with R in *; lia).
        apply (G (length before)); [exact LB| |].
        * etransitivity; [exact X|]. apply fw_entries. etransitivity; [exact (f_equal (fun l => nth_error l (length before)) E)|].
          rewrite nth_error_app2, Nat.sub_diag by lia. reflexivity.
        * etransitivity; [exact (f_equal (@length _) S)|]. rewrite map_length, seq_length. reflexivity.
  Qed.
End FW.
