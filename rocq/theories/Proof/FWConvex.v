From Coq Require Import List Arith Bool ZArith Reals Lra Lia.
From Verif.Base Require Import Num Vec Size Instances.
From Verif.Model Require Import Common FrankWolfe.
From Verif.Spec Require Import CommonSpec GDSpec Gradient FWSpec.
From Verif.Proof Require Import TraceLib GradientProof FWProof.
Import ListNotations.
Local Open Scope R_scope.

Section Convex.
  Variable mx : R.
  Notation RN := (RNum mx).

  Lemma combine_segment (t : R) : forall a b : list R, combine_pts (N := RN) t a b = segment_pt t a b.
  Proof.
    unfold combine_pts, vadd, vscale. induction a as [|x a IH]; intros [|y b]; cbn; try reflexivity.
    f_equal. apply IH.
  Qed.
  Lemma segment_0 : forall a b, length a = length b -> segment_pt 0 a b = a.
  Proof. induction a as [|x a IH]; intros [|y b] L; try discriminate; [reflexivity|].
    change (segment_pt 0 (x :: a) (y :: b)) with (((1 - 0) * x + 0 * y) :: segment_pt 0 a b). rewrite IH by (cbn in L; lia). f_equal. lra. Qed.
  Lemma segment_1 : forall a b, length a = length b -> segment_pt 1 a b = b.
  Proof. induction a as [|x a IH]; intros [|y b] L; try discriminate; [reflexivity|].
    change (segment_pt 1 (x :: a) (y :: b)) with (((1 - 1) * x + 1 * y) :: segment_pt 1 a b). rewrite IH by (cbn in L; lia). f_equal. lra. Qed.

  (** a rule that moves along the segment from the iterate to the solution *)
  Definition on_segment (rule : list (list R * list R) -> list R) : Prop :=
    forall h x s, length x = length s -> exists t, 0 <= t <= 1 /\ rule ((x, s) :: h) = segment_pt t x s.

  Lemma classic_on_segment : on_segment (rule_classic (N := RN)).
  Proof.
    intros h x s L. cbn [rule_classic]. eexists. split; [|apply combine_segment].
    set (k := Z.of_nat (length ((x, s) :: h))). assert (K : 1 <= IZR k) by (apply IZR_le; unfold k; cbn [length]; lia).
    change (0 <= 2 / (IZR k + 2) <= 1). revert K. generalize (IZR k). clear. intros k K. split.
    - apply Rle_mult_inv_pos; lra.
    - apply Rmult_le_reg_r with (k + 2); [lra|]. unfold Rdiv. rewrite Rmult_assoc, Rinv_l by lra. lra.
  Qed.

  Lemma clamp_range (g : R) : 0 <= clamp01 (N := RN) g <= 1.
  Proof. unfold clamp01. cbn. destruct (Rltb_spec g 0); [destruct (Rltb_spec 1 0)|destruct (Rltb_spec 1 g)]; lra. Qed.
  Lemma secant_on_segment tol f grad x1 x2 dx : length x1 = length x2 -> forall k gamma derivative secant,
    0 <= gamma <= 1 ->
    exists t, 0 <= t <= 1 /\ fst (ls_secant (N := RN) tol f grad k x1 x2 dx gamma derivative secant) = segment_pt t x1 x2 /\
      snd (ls_secant (N := RN) tol f grad k x1 x2 dx gamma derivative secant) = f (segment_pt t x1 x2).
  Proof.
    intros L. induction k as [|k IH]; intros gamma derivative secant H; cbn [ls_secant].
    - exists gamma. cbn [fst snd]. rewrite combine_segment. auto.
    - destruct (nlt secant n0).
      + exists 0. cbn [fst snd]. rewrite segment_0 by exact L. split; [lra|auto].
      + destruct (nlt _ tol).
        * eexists. cbn [fst snd]. rewrite combine_segment. split; [apply clamp_range|auto].
        * apply IH, clamp_range.
  Qed.
  Lemma line_search_on_segment k tol f grad x1 x2 : length x1 = length x2 ->
    exists t, 0 <= t <= 1 /\ fst (line_search (N := RN) k tol f grad x1 x2) = segment_pt t x1 x2 /\
      snd (line_search (N := RN) k tol f grad x1 x2) = f (segment_pt t x1 x2).
  Proof.
    intros L. unfold line_search. destruct (nle n0 _).
    { exists 0. cbn [fst snd]. rewrite segment_0 by exact L. split; [lra|auto]. }
    destruct (nle _ n0).
    { exists 1. cbn [fst snd]. rewrite segment_1 by exact L. split; [lra|auto]. }
    destruct (nlt _ tol).
    { exists 0. cbn [fst snd]. rewrite segment_0 by exact L. split; [lra|auto]. }
    apply secant_on_segment; [exact L|]. cbn. lra.
  Qed.
  Lemma linesearch_rule_on_segment k tol f grad : on_segment (rule_linesearch (N := RN) k tol f grad).
  Proof.
    intros h x s L. cbn [rule_linesearch]. destruct (line_search_on_segment k tol f grad x s L) as (t & T0 & E & _).
    exists t. auto.
  Qed.

  Variables (n : nat) (K : list R -> Prop) (lmo : list R -> list R) (rule : list (list R * list R) -> list R).
  Hypothesis CK : convex_set n K.
  Hypothesis HS : on_segment rule.
  Hypothesis HL : forall g, length g = n -> K (lmo g).

  Lemma points_in f cb x0 es : K x0 -> (forall x, K x -> length (snd (f x)) = n) ->
    (forall h x v g, length (cs_grad cb h x v g) = length g) -> good (N := RN) f lmo rule cb x0 es ->
    forall k, (k <= length es)%nat -> K (fw_point (N := RN) lmo rule x0 es k).
  Proof.
    intros K0 LG LC GD. induction k as [|k IH]; intros Lk; [exact K0|].
    assert (NE : exists e, nth_error es k = Some e).
    { destruct (nth_error es k) eqn:E; [eauto|]. apply nth_error_None in E. change (T RN) with R in *. lia. }
    destruct NE as [e E]. destruct (GD k e E) as (FE & P & h & CG).
    assert (KP : K (e_at (N := RN) e)) by (rewrite P; apply IH; lia).
    assert (KS : K (lmo (snd e))) by (apply HL; rewrite CG, LC; specialize (LG _ KP); rewrite FE in LG; exact LG).
    cbn [fw_point]. assert (FS : firstn (S k) es = firstn k es ++ [e]).
    { clear -E. revert k E. induction es as [|a l IHl]; intros [|k] E; try discriminate.
      - injection E as ->. reflexivity.
      - change (firstn (S (S k)) (a :: l)) with (a :: firstn (S k) l). rewrite IHl by exact E. reflexivity. }
    rewrite FS, map_app, rev_app_distr. cbn [map rev app]. unfold fw_pair at 1.
    destruct CK as [CL CC]. destruct (HS (rev (map (fw_pair (N := RN) lmo) (firstn k es))) (e_at (N := RN) e) (lmo (snd e)))
      as (t & T0 & EQ).
    { rewrite (CL _ KP), (CL _ KS). reflexivity. }
    pose proof (CC t _ _ T0 KP KS) as R. rewrite <- EQ in R. exact R.
  Qed.

  Lemma gap_bound F x g (tol : R) y : K x -> minimises K g (lmo g) -> above_tangent K F x g ->
    nlt (n := RN) (fw_gap (N := RN) lmo (x, F x, g, g)) tol = true -> K y -> F x < F y + tol.
  Proof.
    intros Kx [Ks Mn] AT H Ky. destruct CK as [CL _]. unfold fw_gap, e_at in H. cbn [fst snd] in H.
    rewrite vdot_dotR, dotR_vsub in H by (rewrite (CL _ Kx), (CL _ Ks); reflexivity).
    cbn [nlt nabs RNum] in H. destruct (Rltb_spec (Rabs (dotR x g - dotR (lmo g) g)) tol) as [HH|]; [|discriminate].
    specialize (AT y Ky). specialize (Mn y Ky). rewrite (dotR_comm x g), (dotR_comm (lmo g) g) in HH.
    apply Rabs_def2 in HH. lra.
  Qed.
End Convex.
