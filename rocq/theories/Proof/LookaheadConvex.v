(** Lookahead on convex functions. *)
From Coq Require Import List Arith Bool Reals Lra Lia.
From Verif.Base Require Import Num Vec Size Instances.
From Verif.Model Require Import Common Lookahead.
From Verif.Spec Require Import SgdSpec LookaheadSpec Gradient FWSpec ConvergeSpec.
From Verif.Proof Require Import LookaheadProof FWLineSearch.
Import ListNotations.
Local Open Scope R_scope.

Section Convex.
  Variable mx : R.
  Notation RN := (RNum mx).
  Context {B D E : Type}.
  Variables (n : nat) (K : list R -> Prop) (f : list R -> R) (low q step : R).
  Hypothesis CK : convex_set n K.
  Hypothesis CV : convex_on K f.
  Hypothesis LOW : forall x, K x -> low <= f x.
  Hypothesis HQ : 0 <= q <= 1.
  Hypothesis HS : 0 <= step <= 1.
  Let c := 1 - step + step * q.

  Lemma c_range : 0 <= q <= c /\ c <= 1.
  Proof. unfold c. split; [split; [lra|]|]; nra. Qed.

  Definition improves (r : lround RN D) : Prop := K (rd_slow r) -> K (rd_fast r) /\ f (rd_fast r) - low <= q * (f (rd_slow r) - low).

  Lemma one_move (r : lround RN D) : (rd_step r : R) = step -> improves r -> K (rd_slow r) ->
    K (moves_to r) /\ f (moves_to r) - low <= c * (f (rd_slow r) - low).
  Proof.
    intros ES IM Ks. destruct (IM Ks) as [Kf Hf]. unfold moves_to.
    assert (EM : vadd (N := RN) (rd_slow r) (vscale (N := RN) (rd_step r) (vsub (N := RN) (rd_fast r) (rd_slow r))) = segment_pt step (rd_slow r) (rd_fast r)).
    { etransitivity; [exact (along mx (rd_step r) (rd_slow r) (rd_fast r))|]. now rewrite ES. }
    rewrite EM. split; [now apply CK|]. pose proof (CV step _ _ HS Ks Kf) as V.
    assert (step * (f (rd_fast r) - low) <= step * (q * (f (rd_slow r) - low))) by (apply Rmult_le_compat_l; lra). unfold c. lra.
  Qed.

  Lemma rounds_improve (tol : R) conv : forall (rs : list (lround RN D)) x d (prev : R) final, K x -> (forall r, In r rs -> improves r) ->
    follow (N := RN) tol (fun d _ s _ => (d, s)) conv x d step prev rs final ->
    (forall i r, nth_error rs i = Some r -> K (rd_slow r) /\ f (rd_slow r) - low <= c ^ i * (f x - low)) /\
    K final /\ f final - low <= c ^ length rs * (f x - low).
  Proof.
    destruct c_range as [[Q0 QC] C1].
    induction rs as [|r rs IH]; intros x d prev final Kx IM FO.
    - destruct FO as [_ ->]. split; [intros [|]; discriminate|]. split; [exact Kx|]. cbn. lra.
    - cbn [follow] in FO. destruct FO as (ES & ED & FO). injection ED as _ ET.
      assert (Ks : K (rd_slow r)) by (rewrite ES; exact Kx).
      destruct (one_move r ET (IM r (or_introl eq_refl)) Ks) as [Km Hm].
      assert (E0 : 0 <= f x - low) by (specialize (LOW x Kx); lra).
      destruct rs as [|r' rs].
      + destruct FO as [_ EF]. split; [intros [|[|i]] r1 E1; try discriminate; injection E1 as <-; split; [exact Ks|]; rewrite ES; cbn; lra|].
        rewrite EF. cbn [length pow]. rewrite Rmult_1_r. destruct conv.
        * destruct (IM r (or_introl eq_refl) Ks) as [Kf Hf]. split; [exact Kf|]. rewrite ES in Hf. eapply Rle_trans; [exact Hf|]. apply Rmult_le_compat_r; lra.
        * split; [exact Km|]. rewrite ES in Hm. exact Hm.
      + destruct FO as [_ FO]. rewrite ET in FO. destruct (IH _ _ _ _ Km (fun r1 H => IM r1 (or_intror H)) FO) as (A & Kf & Hf).
        assert (SC : forall k, c ^ k * (f (moves_to r) - low) <= c ^ S k * (f x - low)).
        { intros k. rewrite ES in Hm. replace (c ^ S k * (f x - low)) with (c ^ k * (c * (f x - low))) by (cbn; ring).
          apply Rmult_le_compat_l; [apply pow_le; lra|exact Hm]. }
        split; [|split; [exact Kf|eapply Rle_trans; [exact Hf|apply SC]]].
        intros [|i] r1 E1; [injection E1 as <-; split; [exact Ks|]; rewrite ES; cbn; lra|].
        destruct (A i r1 E1) as [K1 H1]. split; [exact K1|]. eapply Rle_trans; [exact H1|apply SC].
  Qed.

  Lemma shown_runs conv : forall (inners : list (list E)) (rs : list (lround RN D)), length inners = length rs ->
    forall r, In r rs -> exists i, In (LRun (N := RN) (rd_slow r) (rd_fast r) (rd_obj r) i) (shown conv inners rs).
  Proof.
    intros inners rs. revert inners. induction rs as [|r rs IH]; intros [|i inners] EL r1 H; try discriminate; [destruct H|].
    cbn [shown]. destruct H as [->|H]; [exists i; now left|]. destruct (IH inners (eq_add_S _ _ EL) r1 H) as [i1 H1].
    exists i1. right. apply in_or_app. now right.
  Qed.

  Theorem lookahead_improves base has_max base_max k maxIterations (tolerance : R) exactObjective numFunctions batchSize feval stop fuel (b : B) (d : D) x (r : @lres RN B D E) :
    (forall m b h y b' fast obj inner, K y -> base m b h y = Some (b', fast, obj, inner) -> K fast /\ f fast - low <= q * (f y - low)) ->
    K x -> lookahead (N := RN) base has_max base_max k maxIterations tolerance exactObjective (fun d _ s _ => (d, s)) numFunctions batchSize feval stop fuel b d step x = Ret r ->
    (forall i rd, nth_error (lr_log r) i = Some rd -> f (rd_slow rd) - low <= c ^ i * (f x - low)) /\
    f (lr_x r) - low <= c ^ length (lr_log r) * (f x - low).
  Proof.
    intros HB Kx H. apply lookahead_ok in H. destruct H as (inners & evs & EL & FO & _ & _ & _ & RB & _).
    assert (IM : forall rd, In rd (lr_log r) -> improves rd).
    { intros rd Hr Ks. destruct (shown_runs (lr_conv r) inners (lr_log r) EL rd Hr) as [i Hi].
      apply in_split in Hi as (pre & post & ET). destruct (RB _ _ _ _ _ _ ET) as (b1 & b2 & EB). exact (HB _ _ _ _ _ _ _ _ Ks EB). }
    destruct (rounds_improve _ _ _ _ _ _ _ Kx IM FO) as (A & _ & F1). split; [intros i rd E1; now destruct (A i rd E1)|exact F1].
  Qed.
End Convex.
