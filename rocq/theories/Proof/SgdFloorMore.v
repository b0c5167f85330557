(** The bound of [SgdFloor] in the words of the specification, and its consequences. *)
From Coq Require Import List Arith Bool Reals Lra Lia.
From Verif.Base Require Import Num Vec Instances Size.
From Verif.Model Require Import Common Sgd SgdPolicies.
From Verif.Spec Require Import ConvergeSpec VrRateSpec SgdRateSpec.
From Verif.Proof Require Import SmoothProof NormProof SgdRate SgdFloor.
Import ListNotations.
Local Open Scope R_scope.

Section More.
  Variable mx : R.
  Notation RN := (RNum mx).
  Variables (p : nat) (L mu : R) (gr : nat -> list R -> list R) (F : list R -> R) (y x0 : list R).
  Variable f : SepFun RN (list R) (list R).
  Notation n := (sf_num f).
  Hypothesis SUM : sgd_sum mx p f gr.
  Hypothesis ES : each_smooth p n L gr.
  Hypothesis SM : smooth_on (space p) L F (avg_grad p n gr).
  Hypothesis SC : strongly_convex_on (space p) mu F.
  Hypothesis HM : 0 < mu <= L.
  Hypothesis Hy : length y = p.
  Hypothesis MN : forall z, length z = p -> F y <= F z.
  Hypothesis Hn : (0 < n)%nat.
  Hypothesis L0 : length x0 = p.
  Notation S0 := (disagreement n gr y).
  Lemma floor_dist h cb batch max tol shuffle exact fuel r : 0 < h -> (0 < batch)%nat -> watches cb -> 8 * (h * INR n) * (L * L) <= mu ->
    optimize_with (plain_sgd mx batch max tol shuffle exact) f cb fuel (sgd_vanilla_init (N := RN) x0) tt h x0 = Return r ->
    (forall x e o, In (EndEpoch x e o) (r_trace r) -> dist x y <= floor_bound n L mu h S0 (dist x0 y) e) /\
    dist (r_x r) y <= 5 / 4 * floor_bound n L mu h S0 (dist x0 y) (passes (r_trace r)) + 2 * (h * S0).
  Proof.
    intros HE Hb W SMALL Run.
    destruct (sgd_floor mx p L mu h gr F y x0 batch max tol shuffle exact f cb SUM W Hb ES SM SC HM HE Hn Hy MN SMALL L0 fuel r Run) as [A B].
    rewrite (dist_dst x0 y). split.
    - intros x e o I. rewrite dist_dst. exact (proj2 (A x e o I)).
    - rewrite dist_dst. exact (proj2 B).
  Qed.
  Lemma floor_zero h cb batch max tol shuffle exact fuel r : 0 < h -> (0 < batch)%nat -> watches cb -> 8 * (h * INR n) * (L * L) <= mu ->
    (forall i, (i < n)%nat -> sqn (gr i y) = 0) ->
    optimize_with (plain_sgd mx batch max tol shuffle exact) f cb fuel (sgd_vanilla_init (N := RN) x0) tt h x0 = Return r ->
    (forall x e o, In (EndEpoch x e o) (r_trace r) -> dist x y <= (1 - h * INR n * mu / 4) ^ e * dist x0 y) /\
    dist (r_x r) y <= 5 / 4 * ((1 - h * INR n * mu / 4) ^ passes (r_trace r) * dist x0 y).
  Proof.
    intros HE Hb W SMALL Z Run. destruct (floor_dist h cb batch max tol shuffle exact fuel r HE Hb W SMALL Run) as [A B].
    assert (S : S0 = 0).
    { unfold disagreement. assert (G : forall l, (forall i, In i l -> (i < n)%nat) -> sumR (map (fun i => len (gr i y)) l) = 0).
      { induction l as [|i l IH]; intros U; cbn; [reflexivity|]. rewrite IH by (intros; apply U; right; assumption).
        unfold len. rewrite Z by (apply U; left; reflexivity). rewrite sqrt_0. lra. }
      apply G. intros i I. apply in_seq in I. lia. }
    rewrite S in A, B. assert (G : forall d e, floor_bound n L mu h 0 d e = (1 - h * INR n * mu / 4) ^ e * d) by (intros; unfold floor_bound; field; lra).
    split.
    - intros x e o I. rewrite <- G. exact (A x e o I).
    - rewrite G in B. lra.
  Qed.
  Lemma floor_accuracy eps : 0 < eps ->
    exists h0, 0 < h0 /\ forall h, 0 < h <= h0 -> exists E,
      forall cb batch max tol shuffle exact fuel r, (0 < batch)%nat -> watches cb ->
        optimize_with (plain_sgd mx batch max tol shuffle exact) f cb fuel (sgd_vanilla_init (N := RN) x0) tt h x0 = Return r ->
        forall x e o, In (EndEpoch x e o) (r_trace r) -> (E <= e)%nat -> dist x y <= eps.
  Proof.
    intros He. pose proof (S0_nonneg n gr y) as Z. assert (NP : 0 < INR n) by (apply lt_0_INR, Hn).
    set (A := 16 * L * (S0 + 1) / mu). assert (HA : 0 < A) by (unfold A, Rdiv; repeat apply Rmult_lt_0_compat; try lra; apply Rinv_0_lt_compat; lra).
    set (B := 8 * INR n * (L * L)). assert (HB : 0 < B) by (unfold B; repeat apply Rmult_lt_0_compat; lra).
    exists (Rmin (eps / A) (mu / B)). split.
    { apply Rmin_glb_lt; apply Rmult_lt_0_compat; try lra; apply Rinv_0_lt_compat; assumption. }
    intros h [HE HU]. assert (H1 : h * A <= eps).
    { apply Rle_trans with (eps / A * A); [apply Rmult_le_compat_r; [lra|]; eapply Rle_trans; [exact HU|apply Rmin_l]|]. apply Req_le. field. lra. }
    assert (H2 : h * B <= mu).
    { apply Rle_trans with (mu / B * B); [apply Rmult_le_compat_r; [lra|]; eapply Rle_trans; [exact HU|apply Rmin_r]|]. apply Req_le. field. lra. }
    assert (SMALL : 8 * (h * INR n) * (L * L) <= mu) by (unfold B in H2; lra).
    pose proof (q_range n L mu h HM HE Hn SMALL) as Q. set (q := 1 - h * INR n * mu / 4) in *.
    assert (FL : 8 * h * L * S0 / mu <= eps / 2).
    { assert (h * A = 2 * (8 * h * L * S0 / mu) + 16 * h * L / mu) by (unfold A; field; lra).
      assert (0 <= 16 * h * L / mu) by (apply Rmult_le_pos; [repeat apply Rmult_le_pos; lra|apply Rlt_le, Rinv_0_lt_compat; lra]). lra. }
    assert (D0 : 0 <= dist x0 y) by apply sqrt_pos.
    destruct (pow_lt_1_zero q ltac:(rewrite Rabs_right; lra) (eps / 2 / (dist x0 y + 1)) ltac:(apply Rmult_lt_0_compat; [lra|apply Rinv_0_lt_compat; lra])) as [E HP].
    exists E. intros cb batch max tol shuffle exact fuel r Hb W Run x e o I Ge.
    destruct (floor_dist h cb batch max tol shuffle exact fuel r HE Hb W SMALL Run) as [K _]. eapply Rle_trans; [exact (K x e o I)|].
    unfold floor_bound. fold q. specialize (HP e Ge). assert (P0 : 0 <= q ^ e) by (apply pow_le; lra). rewrite Rabs_right in HP by lra.
    assert (q ^ e * dist x0 y <= eps / 2).
    { apply Rle_trans with (eps / 2 / (dist x0 y + 1) * (dist x0 y + 1)).
      - apply Rmult_le_compat; lra.
      - apply Req_le. field. lra. }
    lra.
  Qed.
End More.
