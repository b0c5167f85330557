From Coq Require Import List Arith Bool ZArith Reals Lra Lia FunctionalExtensionality.
From Verif.Base Require Import Num Vec Instances.
From Verif.Model Require Import Common Svec LRSDP PrimalDual.
From Verif.Spec Require Import LpSpec SvecSpec Gradient CommonSpec PrimalDualSpec.
From Verif.Proof Require Import ProximalProof SvecProof GradientProof LRSDPProof PrimalDualProof.
Import ListNotations.
Local Open Scope R_scope.

Lemma dotv_nil_r a : dotv a [] = 0. Proof. destruct a; reflexivity. Qed.
Lemma combo_nil y i j : combo y [] i j = 0.
Proof. unfold combo. destruct y; reflexivity. Qed.
Lemma combo_cons c y A l i j : combo (c :: y) (A :: l) i j = c * A i j + combo y l i j.
Proof. reflexivity. Qed.

Lemma resid_nth mx (bs fx fs : list R) k b x s : nth_error bs k = Some b -> nth_error fx k = Some x -> nth_error fs k = Some s ->
  nth_error (vadd (N := RNum mx) (vsub (N := RNum mx) bs fx) fs) k = Some (b - x + s).
Proof.
  revert fx fs k. induction bs as [|u bs IH]; intros [|v fx] [|w fs] [|k]; cbn; try discriminate.
  - intros [= <-] [= <-] [= <-]. reflexivity.
  - apply IH.
Qed.

Section A.
Variable mx : R.
Notation RN := (RNum mx).
Variable p : program (N := RN).
Notation n := (pd_n p).
Notation SV := (sv (N := RN) (sqrt 2) p).
Notation SM := (sm (N := RN) (sqrt 2) (/ 2)).
Notation As := (As mx p).
Variable syl : Mt -> Mt -> Mt -> Mt.
Variable lsolve : list (list R) -> list R -> option (list R).
Hypothesis Hsyl : syl_ok n syl.
Hypothesis Hsolve : lsolve_ok lsolve.
Hypothesis HAs : forall A, In A As -> symmetric n A.
Hypothesis HC : symmetric n (pd_C p).

Lemma dual_residual_sv s : dual_residual (N := RN) (sqrt 2) p s
  = SV (fun i j => pd_C p i j - ps_Z s i j - combo (ps_ys s ++ ps_yd s) As i j).
Proof.
  unfold dual_residual. rewrite tmv_combo.
  refine (eq_trans (f_equal (fun v => vsub (N := RN) v _) (sv_sub mx p _ _)) _). exact (sv_sub mx p _ _).
Qed.

Definition gk (X Z : Mt) (A : Mt) : Mt := lyap (N := RN) syl Z (madd (N := RN) (mmul p X A) (mmul p A X)).
Lemma gk_ok X Z A : symmetric n X -> symmetric n Z -> pos_def n Z -> In A As ->
  symmetric n (gk X Z A) /\
  meq n (fun i j => matmul n Z (gk X Z A) i j + matmul n (gk X Z A) Z i j) (fun i j => matmul n X A i j + matmul n A X i j).
Proof.
  intros SX SZ PZ HA.
  assert (SG : symmetric n (madd (N := RN) (mmul p X A) (mmul p A X))).
  { intros i j Hi Hj. unfold madd. rewrite !mmul_eq. cbn.
    rewrite (matmul_sym n X A i j), (matmul_sym n A X i j) by (auto). lra. }
  destruct (lyap_ok mx p syl Hsyl Z _ SZ PZ SG) as (S1 & E1). split; [exact S1|].
  intros i j Hi Hj. refine (eq_trans (E1 i j Hi Hj) _). unfold madd. rewrite !mmul_eq. reflexivity.
Qed.
Lemma schur_eq X Z : symmetric n X -> symmetric n Z -> pos_def n Z ->
  schur_matrix (N := RN) (sqrt 2) p syl X Z = map (fun A => map (fun A' => frob n A (gk X Z A')) As) As.
Proof.
  intros SX SZ PZ. unfold schur_matrix, rows. rewrite !map_map. apply map_ext_in. intros A HA. rewrite map_map. apply map_ext_in. intros A' HA'.
  refine (eq_trans (vdot_dotv mx _ _) _). destruct (gk_ok X Z A' SX SZ PZ HA') as (SG & _).
  refine (eq_trans (svec_dot mx n A (gk X Z A') (HAs A HA) SG) _). apply frob_trace. exact SG.
Qed.

(** combinations of the solutions solve the combined equation *)
Lemma gk_combo X Z : symmetric n X -> symmetric n Z -> pos_def n Z -> forall (l : list Mt) (y : list R), incl l As ->
  symmetric n (combo y (map (gk X Z) l)) /\
  meq n (fun i j => matmul n Z (combo y (map (gk X Z) l)) i j + matmul n (combo y (map (gk X Z) l)) Z i j)
        (fun i j => matmul n X (combo y l) i j + matmul n (combo y l) X i j).
Proof.
  intros SX SZ PZ. intros l y HI. split.
  - apply combo_symmetric. intros G HG. apply in_map_iff in HG. destruct HG as (A & <- & HA). apply gk_ok; auto.
  - intros i j Hi Hj. rewrite !combo_matmul_l, !combo_matmul_r, !map_map. revert y.
    induction l as [|A l IH]; intros [|c y]; try (unfold combo; cbn; lra).
    cbn [map]. rewrite !combo_cons.
    specialize (IH (fun a h => HI a (or_intror h)) y).
    destruct (gk_ok X Z A SX SZ PZ (HI A (or_introl eq_refl))) as (_ & E). specialize (E i j Hi Hj). cbn beta in E.
    assert (E2 : c * (matmul n Z (gk X Z A) i j + matmul n (gk X Z A) Z i j) = c * (matmul n X A i j + matmul n A X i j)) by (rewrite E; reflexivity).
    lra.
Qed.

Theorem direction_ok (s : pstate (N := RN)) (Rc dX dZ : Mt) (dy : list R) :
  symmetric n (ps_X s) -> symmetric n (ps_Z s) -> pos_def n (ps_Z s) -> symmetric n Rc ->
  length (pd_sB p ++ pd_dB p) = length As ->
  direction (N := RN) (sqrt 2) (/ 2) p syl lsolve s Rc = Some (dX, dy, dZ) ->
  newton_direction n (pd_C p) As (pd_sB p ++ pd_dB p) (ps_X s) (ps_ys s ++ ps_yd s) (ps_Z s) Rc dX dy dZ.
Proof.
  intros SX SZ PZ SR LB. unfold direction, solve_kkt. rewrite dual_residual_sv.
  set (X := ps_X s) in *. set (Z := ps_Z s) in *.
  set (y := ps_ys s ++ ps_yd s) in *. pose (Rd i j := pd_C p i j - Z i j - combo y As i j).
  assert (SRd : symmetric n Rd).
  { intros i j Hi Hj. unfold Rd. rewrite (HC i j), (SZ i j), (combo_symmetric mx p y As HAs i j) by assumption. reflexivity. }
  change (SV (fun i j => pd_C p i j - Z i j - combo y As i j)) with (SV Rd).
  rewrite (mv_kron mx p X Rd SRd).
  pose (H0 i j := half_sum (matmul n X Rd) (matmul n Rd X) i j - Rc i j).
  assert (SH0 : symmetric n H0).
  { intros i j Hi Hj. unfold H0. rewrite (half_sum_symmetric mx p X Rd SX SRd i j), (SR i j) by assumption. reflexivity. }
  rewrite sv_sub. change (fun i j => half_sum (matmul n X Rd) (matmul n Rd X) i j - Rc i j) with H0.
  destruct (einv_sv mx p syl Hsyl Z H0 SZ PZ SH0) as (S0 & E0 & SS0 & LS0). rewrite E0.
  rewrite (mv_rows mx p HAs S0 SS0). rewrite (schur_eq X Z SX SZ PZ).
  destruct (lsolve _ _) as [dy'|] eqn:EL; [|discriminate].
  destruct (Hsolve _ _ _ EL) as (Ldy & ES). rewrite map_length in Ldy.
  rewrite tmv_combo. rewrite sv_sub.
  pose (DZ i j := Rd i j - combo dy' As i j).
  change (fun i j => Rd i j - combo dy' As i j) with DZ.
  assert (SDZ : symmetric n DZ).
  { intros i j Hi Hj. unfold DZ. rewrite (SRd i j), (combo_symmetric mx p dy' As HAs i j) by assumption. reflexivity. }
  rewrite (mv_kron mx p X DZ SDZ), sv_sub.
  pose (H1 i j := half_sum (matmul n X DZ) (matmul n DZ X) i j - Rc i j).
  change (fun i j => half_sum (matmul n X DZ) (matmul n DZ X) i j - Rc i j) with H1.
  assert (SH1 : symmetric n H1).
  { intros i j Hi Hj. unfold H1. rewrite (half_sum_symmetric mx p X DZ SX SDZ i j), (SR i j) by assumption. reflexivity. }
  destruct (einv_sv mx p syl Hsyl Z H1 SZ PZ SH1) as (S1 & E1 & SS1 & LS1). rewrite E1, sv_opp.
  intros E. assert (EX : SM (SV (fun i j => - S1 i j)) = dX) by congruence.
  assert (EY : dy' = dy) by congruence. assert (EZ : SM (SV DZ) = dZ) by congruence. clear E. subst dy'.
  assert (SN1 : symmetric n (fun i j => - S1 i j)) by (intros i j Hi Hj; rewrite (SS1 i j) by assumption; reflexivity).
  assert (QX : meq n dX (fun i j => - S1 i j)) by (rewrite <- EX; apply sm_sv; exact SN1).
  assert (QZ : meq n dZ DZ) by (rewrite <- EZ; apply sm_sv; exact SDZ).
  (* S1 = S0 - combo dy (gk As) *)
  destruct (gk_combo X Z SX SZ PZ As dy (incl_refl _)) as (SGc & EGc).
  assert (QS : meq n S1 (fun i j => S0 i j - combo dy (map (gk X Z) As) i j)).
  { assert (D : meq n (fun i j => S1 i j - (S0 i j - combo dy (map (gk X Z) As) i j)) (fun _ _ => 0)).
    { apply (lyapunov_unique n Z); [|exact PZ|].
      - intros i j Hi Hj. rewrite (SS1 i j), (SS0 i j), (SGc i j) by assumption. reflexivity.
      - intros i j Hi Hj. rewrite matmul_minus_r, matmul_minus_l.
        rewrite (matmul_minus_r n Z S0), (matmul_minus_l n S0).
        specialize (LS1 i j Hi Hj). specialize (LS0 i j Hi Hj). specialize (EGc i j Hi Hj). cbn beta in *.
        assert (EH : 2 * H1 i j = 2 * H0 i j - (matmul n X (combo dy As) i j + matmul n (combo dy As) X i j)).
        { unfold H1, H0, half_sum, DZ. rewrite matmul_minus_r, matmul_minus_l. lra. }
        lra. }
    intros i j Hi Hj. specialize (D i j Hi Hj). cbn beta in D. lra. }
  split; [|split; [|split; [|split; [|split]]]].
  - apply (meq_symmetric mx p _ _ QX). exact SN1.
  - apply (meq_symmetric mx p _ _ QZ). exact SDZ.
  - exact Ldy.
  - intros k A b HA Hb.
    assert (EK : frob n A (combo dy (map (gk X Z) As)) = b - frob n A X + frob n A S0).
    { rewrite frob_combo, map_map.
      assert (R1 : nth_error (map (fun r => dotv r dy) (map (fun A => map (fun A' => frob n A (gk X Z A')) As) As)) k
                 = Some (dotv (map (fun A' => frob n A (gk X Z A')) As) dy)).
      { rewrite map_map. apply map_nth_error with (f := fun A => dotv (map (fun A' => frob n A (gk X Z A')) As) dy). exact HA. }
      rewrite ES in R1.
      assert (R2 : nth_error (vadd (N := RN) (primal_residual (N := RN) (sqrt 2) p X) (map (fun A => frob n A S0) As)) k
                 = Some (b - frob n A X + frob n A S0)).
      { refine (eq_trans (f_equal (fun v : list R => nth_error (vadd (N := RN) (vsub (N := RN) (pd_sB p ++ pd_dB p) v) (map (fun A => frob n A S0) As)) k) (mv_rows mx p HAs X SX)) _).
        exact (resid_nth mx _ _ _ k b _ _ Hb (map_nth_error (fun A => frob n A X) k As HA) (map_nth_error (fun A => frob n A S0) k As HA)). }
      assert (R3 : Some (dotv (map (fun A' => frob n A (gk X Z A')) As) dy) = Some (b - frob n A X + frob n A S0))
        by exact (eq_trans (eq_sym R1) R2).
      injection R3 as R3. exact R3. }
    rewrite (frob_ext mx p A dX (fun i j => - S1 i j) QX).
    rewrite (frob_ext mx p A (fun i j => - S1 i j) (fun i j => combo dy (map (gk X Z) As) i j - S0 i j))
      by (intros i j Hi Hj; rewrite QS by assumption; lra).
    rewrite frob_minus, EK. lra.
  - intros i j Hi Hj. rewrite QZ by assumption. unfold DZ, Rd. lra.
  - intros i j Hi Hj.
    assert (M1 : matmul n Z dX i j = - matmul n Z S1 i j).
    { rewrite <- matmul_opp_r. apply (matmul_ext n Z Z dX _ (fun _ _ _ _ => eq_refl) QX); assumption. }
    assert (M2 : matmul n dX Z i j = - matmul n S1 Z i j).
    { rewrite <- matmul_opp_l. apply (matmul_ext n dX _ Z Z QX (fun _ _ _ _ => eq_refl)); assumption. }
    assert (M3 : matmul n X dZ i j = matmul n X DZ i j) by (apply (matmul_ext n X X dZ DZ (fun _ _ _ _ => eq_refl) QZ); assumption).
    assert (M4 : matmul n dZ X i j = matmul n DZ X i j) by (apply (matmul_ext n dZ DZ X X QZ (fun _ _ _ _ => eq_refl)); assumption).
    unfold half_sum. rewrite M1, M2, M3, M4. specialize (LS1 i j Hi Hj). cbn beta in LS1. unfold H1, half_sum in LS1. lra.
Qed.
End A.
