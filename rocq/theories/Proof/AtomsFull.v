(** UpdateFullCorrection, and what does not hold of the two update rules. *)
From Coq Require Import List Arith Bool ZArith Reals Lra Lia Permutation.
From Verif.Base Require Import Num Vec Instances.
From Verif.Model Require Import Common Proximal Atoms.
From Verif.Spec Require Import LpSpec ProximalSpec AtomsSpec.
From Verif.Proof Require Import ProximalProof LpMore AtomsProof.
Import ListNotations.
Local Open Scope R_scope.

Section F.
Variable mx : R.
Notation RN := (RNum mx).
Ltac toR := change (T (RNum mx)) with R in *.
Variables (d : nat) (A : list (list R)) (b : list R).
Hypothesis HA : Forall (fun row => length row = d) A.
Hypothesis Hb : length b = length A.
Variable sortd : list R -> list R.
Hypothesis Hsort : sorts_down sortd.
Variables (tau eta tol : R).
Hypothesis Htau : 0 <= tau.
Notation atoms := (atoms (N := RN)).
Notation okA := (okA mx d A).
Notation recover := (recover (N := RN) d).
Notation fc l := (fun c => loss A b (lin d l c)).

Lemma project_ret v : v <> [] -> exists r, project_l1 (N := RN) sortd v tau = Ret r.
Proof.
  intros NE. unfold project_l1. destruct (nle _ _); [eauto|].
  assert (E : forall l : list R, existsb (nisnan (n := RN)) l = false) by (induction l as [|x l IH]; [reflexivity|exact IH]).
  rewrite E. destruct v; [congruence|eauto].
Qed.
Lemma sub_scale_len c (l : list (list R)) (g : list R) : length c = length l -> length g = length l ->
  length (map2 Rminus c (map (Rmult eta) g)) = length l.
Proof. intros H1 H2. rewrite map2_length, map_length, H1, H2. apply Nat.min_id. Qed.

Lemma enhance_loop_ok : forall k (a : atoms), okA a -> at_atoms a <> [] ->
  exists a', enhance_loop (N := RN) d A b sortd (S k) tau eta tol (loss A b (recover a)) (recover a) a = Ret a' /\
    okA a' /\ at_atoms a' = at_atoms a /\ norm1 (at_coeffs a') <= tau /\
    passes (fc (at_atoms a)) (coef_grad d A b (at_atoms a)) tau eta tol (S k) (at_coeffs a) (at_coeffs a').
Proof.
  induction k as [|k IH]; intros a OK NE.
  all: cbn [enhance_loop]; pose proof OK as (F & L & Q);
    assert (EG : map (fun t => vdot (N := RN) t (sq_grad (N := RN) d A b (recover a))) (at_atoms a) = coef_grad d A b (at_atoms a) (at_coeffs a))
      by (unfold coef_grad; apply map_ext; intros t; rewrite vdot_R, dotR_comm, grad_dot, (recover_R mx d A a OK), dotR_comm by exact HA; reflexivity);
    set (v := map2 Rminus (at_coeffs a) (map (Rmult eta) (coef_grad d A b (at_atoms a) (at_coeffs a))));
    assert (LV : length v = length (at_atoms a)) by (apply sub_scale_len; [exact L|unfold coef_grad; apply map_length]);
    destruct (project_ret v) as [r ER]; [intros E0; rewrite E0 in LV; destruct (at_atoms a); [congruence|discriminate]|];
    destruct (l1_ok mx sortd v tau r Hsort Htau ER) as (R1 & R2 & R3 & _ & R5);
    assert (SH : l1_shrunk tau v r) by (split; [exact R1|split; [exact R2|split; [exact R3|exact R5]]]);
    match goal with |- context [project_l1 sortd ?u ?t] => replace (project_l1 (N := RN) sortd u t) with (Ret (A := list R) r)
      by (symmetry; etransitivity; [|exact ER]; f_equal; toR; rewrite EG; reflexivity) end;
    set (a1 := {| at_atoms := at_atoms a; at_coeffs := r; at_sq := at_sq a |});
    assert (OK1 : okA a1) by (split; [exact F|split; [cbn [a1 at_atoms at_coeffs]; toR; rewrite R1; exact LV|exact Q]]);
    assert (V0 : loss A b (recover a) = loss A b (lin d (at_atoms a) (at_coeffs a))) by (rewrite (recover_R mx d A a OK); reflexivity);
    assert (V1 : loss A b (recover a1) = loss A b (lin d (at_atoms a) r)) by (rewrite (recover_R mx d A a1 OK1); reflexivity);
    rewrite sq_eval_R; cbn [nlt nsub RNum].
  - match goal with |- context [Rltb ?p ?q] => destruct (Rltb_spec p q) as [G|G] end.
    all: exists a1; split; [reflexivity|]; split; [exact OK1|]; split; [reflexivity|]; split; [exact R2|]; apply pass_last; [exact SH|left; reflexivity].
  - match goal with |- context [Rltb ?p ?q] => destruct (Rltb_spec p q) as [G|G] end.
    + exists a1. split; [reflexivity|]. split; [exact OK1|]. split; [reflexivity|]. split; [exact R2|]. apply pass_last; [exact SH|right].
      rewrite V0, V1 in G; exact G.
    + destruct (IH a1 OK1 NE) as (a' & E & O' & A' & N' & P'). exists a'. split; [exact E|]. split; [exact O'|]. split; [exact A'|]. split; [exact N'|].
      eapply pass_more; [exact SH| |exact P']. rewrite V0, V1 in G; apply Rnot_lt_le; exact G.
Qed.

Lemma full_ok old s (a : atoms) : okA a -> length s = d ->
  let g := full_gamma (N := RN) A b tau old s in
  exists a', full_update (N := RN) d A b sortd tau eta tol old s a = Ret a' /\ okA a' /\
    at_atoms a' = s :: at_atoms a /\ norm1 (at_coeffs a') <= tau /\
    passes (fc (s :: at_atoms a)) (coef_grad d A b (s :: at_atoms a)) tau eta tol 99
      (g * tau :: map (Rmult (1 - g)) (at_coeffs a)) (at_coeffs a').
Proof.
  intros OK Ls g. unfold full_update. fold g.
  set (a1 := {| at_atoms := at_atoms a; at_coeffs := vscale (N := RN) (nsub (n := RN) n1 g) (at_coeffs a); at_sq := at_sq a |}).
  assert (OK1 : okA a1). { destruct OK as (F & L & Q). split; [exact F|]. split; [|exact Q]. cbn [a1 at_coeffs at_atoms]. unfold vscale. rewrite map_length. exact L. }
  destruct (ok_add mx d A s (g * tau) a1 Ls OK1) as (OK2 & EA & EC).
  set (a2 := add_atom (N := RN) A s (g * tau) a1) in *.
  assert (NE : at_atoms a2 <> []) by (rewrite EA; discriminate).
  destruct (enhance_loop_ok 98 a2 OK2 NE) as (a' & E & O' & A' & N' & P'). exists a'.
  split; [|split; [exact O'|split; [rewrite A'; exact EA|split; [exact N'|]]]].
  - unfold enhance. change (100 - 1)%nat with 99%nat. rewrite sq_eval_R. exact E.
  - toR. rewrite EA, EC in P'. exact P'.
Qed.

(** the step of the line search *)
Lemma gamma_ok old s : length old = d -> length s = d ->
  let v := map2 Rminus (map (Rmult tau) s) old in
  0 < dotR (rowsR A v) (rowsR A v) ->
  let g := full_gamma (N := RN) A b tau old s in
  g <= 1 /\ forall t, t <= 1 -> loss A b (map2 Rplus old (map (Rmult g) v)) <= loss A b (map2 Rplus old (map (Rmult t) v)).
Proof.
  intros Lo Ls v P g.
  assert (Lv : length v = d) by (unfold v; rewrite map2_length, map_length, Lo, Ls; apply Nat.min_id).
  set (q := dotR (rowsR A v) (rowsR A v)) in *. set (p := dotR (map2 Rminus (rowsR A old) b) (rowsR A v)).
  assert (RS : forall c u, rowsR A (map (Rmult c) u) = map (Rmult c) (rowsR A u)).
  { intros c u. unfold rowsR. rewrite map_map. apply map_ext. intros row. apply dotR_scale. }
  assert (EX : forall t, loss A b (map2 Rplus old (map (Rmult t) v)) = loss A b old + t * p + t * t * q / 2).
  { intros t. rewrite (loss_expand mx d A b HA Hb) by (rewrite ?map_length; assumption). rewrite (grad_dot mx d A b HA).
    rewrite RS, !dotR_scale, (dotR_comm (map _ _)), dotR_scale. fold p q. lra. }
  assert (SW : forall x y : list R, length x = length y -> dotR (map2 Rminus x y) (rowsR A v) = - dotR (map2 Rminus y x) (rowsR A v)).
  { intros x y L. rewrite !(dotR_comm (map2 Rminus _ _)), !dotR_sub by (try exact L; symmetry; exact L). lra. }
  assert (EGm : g = if Rltb 1 (- p / q) then 1 else - p / q).
  { unfold g, full_gamma. rewrite !vdot_R, !mulA_R. change (vsub (N := RN)) with (map2 Rminus). change (vscale (N := RN)) with (fun c => map (Rmult c)). cbv beta. toR.
    fold v. cbn [nsqrt nmul ndiv nlt n1 RNum]. toR. fold q. rewrite sqrt_sqrt by lra. rewrite SW by (rewrite Hb; symmetry; apply rowsR_len). fold p. reflexivity. }
  rewrite EGm. destruct (Rltb_spec 1 (- p / q)) as [G|G].
  - split; [lra|]. intros t Ht. rewrite !EX.
    assert (H : q < - p) by (apply (Rmult_lt_compat_r q) in G; [|exact P]; unfold Rdiv in G; rewrite Rmult_assoc, Rinv_l in G by lra; lra).
    assert (H1 : 0 <= (1 - t) * (- p - q)) by (apply Rmult_le_pos; lra).
    assert (H2 : 0 <= (1 - t) * (1 - t) * q) by (apply Rmult_le_pos; [apply Rle_0_sqr|lra]). lra.
  - split; [lra|]. intros t _. rewrite !EX. set (m := - p / q). assert (E : p = - m * q) by (unfold m; field; lra). rewrite E.
    assert (H2 : 0 <= (m - t) * (m - t) * q) by (apply Rmult_le_pos; [apply Rle_0_sqr|lra]). lra.
Qed.
(** the coefficients before the passes are those of the line search, if the old point is the
    combination of the old atoms *)
Lemma start_point s (a : atoms) g : okA a -> length s = d ->
  lin d (s :: at_atoms a) (g * tau :: map (Rmult (1 - g)) (at_coeffs a)) =
  map2 Rplus (recover a) (map (Rmult g) (map2 Rminus (map (Rmult tau) s) (recover a))).
Proof.
  intros OK Ls. rewrite (recover_R mx d A a OK). destruct OK as (F & L & _). toR. apply nth_eq.
  - rewrite map2_length, map_length, map2_length, map_length, !lin_len, Ls. lia.
  - intros j Hj. rewrite lin_len in Hj.
    rewrite nth_map2 by (rewrite ?map_length, ?map2_length, ?map_length, ?lin_len, ?Ls; lia).
    assert (NM : forall c (u : list R), length u = d -> nth j (map (Rmult c) u) 0 = c * nth j u 0).
    { intros c u Lu. rewrite (nth_indep _ 0 (Rmult c 0)) by (rewrite map_length, Lu; exact Hj). rewrite (map_nth (Rmult c)). reflexivity. }
    rewrite NM by (rewrite map2_length, map_length, lin_len, Ls; apply Nat.min_id).
    rewrite nth_map2 by (rewrite ?map_length, ?lin_len, ?Ls; lia). rewrite NM by exact Ls. rewrite !lin_nth by exact Hj. cbn [map2 sumR].
    assert (SC : forall (l : list (list R)) c, sumR (map2 (fun ci col => ci * nth j col 0) (map (Rmult (1 - g)) c) l) =
      (1 - g) * sumR (map2 (fun ci col => ci * nth j col 0) c l)).
    { induction l as [|u l IHl]; intros [|x c]; cbn; try lra. rewrite IHl. lra. }
    rewrite SC. lra.
Qed.
End F.

(** ** What does not hold *)
Section R.
Variable mx : R.
Notation RN := (RNum mx).
Ltac toR := change (T (RNum mx)) with R in *.

Ltac leq := toR; repeat match goal with
  | |- _ :: _ = _ :: _ => apply f_equal2
  | |- @eq (list _) _ _ => reflexivity
  | |- _ => lra end.
(** UpdateSpan, first step: the old point is not in the span *)
Lemma span_first_worse solve index_min : least_squares 2 solve ->
  let A := [[1; 0]; [0; 1]] in
  span_update (N := RN) 2 A [3; 3] solve index_min false [3; 2] [0; 1] no_atoms = Bad \/
  exists a', span_update (N := RN) 2 A [3; 3] solve index_min false [3; 2] [0; 1] no_atoms = Ret a' /\
    loss A [3; 3] [3; 2] = 1 / 2 /\ loss A [3; 3] (recover (N := RN) 2 a') = 9 / 2.
Proof.
  intros HS A. unfold span_update. cbn [add_atom no_atoms at_atoms at_sq]. unfold mulA. cbn [map].
  match goal with |- context [solve ?x ?y] => destruct (solve x y) as [c|] eqn:E end; [right|left; reflexivity].
  eexists. split; [reflexivity|]. split; [unfold loss, sqdist, rowsR, dotR; cbn; lra|].
  apply HS in E; [|repeat constructor|reflexivity]. destruct E as [L H]. specialize (H [3] eq_refl). destruct c as [|c [|]]; try discriminate.
  unfold sqdist, lin, vdot, vsum, vmul in H. cbn in H.
  assert (C : c = 3) by nra. subst c. unfold recover, combo, loss, sqdist, rowsR, dotR. cbn. lra.
Qed.

(** UpdateFullCorrection: one atom, the projection divides by zero *)
Lemma full_stuck sortd eta tol : sorts_down sortd -> 0 < eta -> - 18 < tol ->
  exists a', full_update (N := RN) 1 [[1]] [10] sortd 2 eta tol [0] [1] no_atoms = Ret a' /\
    recover (N := RN) 1 a' = [0] /\ loss [[1]] [10] [0] = 50 /\ loss [[1]] [10] [2] = 32.
Proof.
  intros HS He Ht.
  assert (G : full_gamma (N := RN) [[1]] [10] 2 [0] [1] = 1).
  { unfold full_gamma. rewrite !(vdot_R mx). unfold mulA, vdot, vsum, vmul, vsub, vscale, dotR. cbn.
    match goal with |- context [sqrt ?e] => replace e with (2 * 2) by lra end. rewrite sqrt_square by lra.
    match goal with |- context [Rltb 1 ?e] => replace e with 5 by lra end. destruct (Rltb_spec 1 5); lra. }
  unfold full_update. rewrite G. cbn [no_atoms at_atoms at_coeffs at_sq add_atom]. unfold enhance. change (100 - 1)%nat with (S 98). generalize 98%nat. intros k98.
  cbn [enhance_loop].
  assert (P : forall x, 2 < x -> project_l1 (N := RN) sortd [x] 2 = Ret [0]).
  { intros x Hx. unfold project_l1. cbn [map nabs RNum nle]. rewrite (Rabs_pos_eq x) by lra.
    assert (S1 : sortd [x] = [x]). { destruct (HS [x]) as [PM _]. apply Permutation_sym, Permutation_length_1_inv in PM. exact PM. }
    toR. unfold vsum. cbn [fold_left nadd n0 RNum]. destruct (Rleb_spec (0 + x) 2); [lra|]. cbn [existsb nisnan RNum orb].
    rewrite S1. unfold l1_theta. cbn [length find_rho cumsum nth]. cbn [nlt nsub ndiv n0 nofZ RNum]. destruct (Rltb _ _); reflexivity. }
  match goal with |- context [project_l1 sortd ?u ?t] => replace (project_l1 (N := RN) sortd u t) with (Ret (A := list R) [0]) end.
  2: { symmetry. match goal with |- project_l1 _ ?u _ = _ => assert (EU : exists x, u = [x] /\ 2 < x) end.
       { eexists. split; [reflexivity|]. unfold sq_grad, mulAt, residual, mulA, combo, vdot, vsum, vmul, vsub, vscale, recover, combo. cbn. nra. }
       destruct EU as (x & -> & Hx). apply P. exact Hx. }
  match goal with |- context [nlt ?p tol] => assert (EL : nlt (n := RN) p tol = true) end.
  { rewrite !(sq_eval_R mx). unfold recover, combo, loss, sqdist, rowsR, dotR, vscale, vadd. cbn. destruct (Rltb_spec (((1 * (0 + 1 * 2 * 1) + 0 - 10) * ((1 * (0 + 1 * 2 * 1) + 0 - 10) * 1) + 0) / 2 - ((1 * (0 + 0 * 1) + 0 - 10) * ((1 * (0 + 0 * 1) + 0 - 10) * 1) + 0) / 2) tol); [reflexivity|lra]. }
  rewrite EL. eexists. split; [reflexivity|]. unfold recover, combo, loss, sqdist, rowsR, dotR, vscale, vadd. cbn.
  split; [f_equal; lra|]. split; lra.
Qed.

(** UpdateSpan leaves the constraint set: [1] is in the unit ball, the result is not *)
Lemma span_leaves solve index_min isPrune x a' : least_squares 1 solve ->
  span_update (N := RN) 1 [[1]] [10] solve index_min isPrune x [1] no_atoms = Ret a' ->
  recover (N := RN) 1 a' = [10].
Proof.
  intros HS. unfold span_update. cbn [add_atom no_atoms at_atoms at_sq]. unfold mulA. cbn [map].
  match goal with |- context [solve ?x ?y] => destruct (solve x y) as [c|] eqn:E end; [|discriminate].
  apply HS in E; [|repeat constructor|reflexivity]. destruct E as [L H]. specialize (H [10] eq_refl). destruct c as [|c [|]]; try discriminate.
  unfold sqdist, lin, vdot, vsum, vmul in H. cbn in H. assert (C : c = 10) by nra. subst c.
  intros E. destruct isPrune; cbn in E; injection E as <-; unfold recover, combo; cbn; f_equal; lra.
Qed.

(** PruneSupport: the costs of the second pass are those of the first *)
Definition P_atoms : list (list R) := [[1; 0; 0]; [1; 1; 0]; [0; 0; 1]].
Definition P_A : list (list R) := [[1; 0; 0]; [0; 1; 0]; [0; 0; 1]].
Lemma prune_stale solve index_min : least_squares 3 solve -> arg_min index_min ->
  solve [[1; 1; 0]; [0; 0; 1]] [2; 1; 2] <> None -> solve [[0; 0; 1]] [2; 1; 2] <> None ->
  (exists a', prune (N := RN) 3 P_A [2; 1; 2] solve index_min 4 (Build_atoms (N := RN) P_atoms [1; 1; 2] [1; 2; 1]) = Ret a' /\
    recover (N := RN) 3 a' = [0; 0; 2]) /\ loss P_A [2; 1; 2] [0; 0; 2] = 5 / 2 /\
  loss P_A [2; 1; 2] (lin 3 [[1; 1; 0]] [3 / 2]) = 9 / 4.
Proof.
  intros HS HM S1 S2. split; [|split; unfold loss, sqdist, rowsR, dotR, lin; cbn; lra].
  unfold prune, first_sq. cbn [P_atoms at_atoms at_coeffs at_sq length map2].
  cbn [prune_loop at_atoms length Nat.leb at_coeffs at_sq].
  match goal with |- context [index_min ?l] => set (g1 := l) end.
  assert (E1 : g1 = [1 / 2; 1; 2]).
  { unfold g1, gaps, recover, combo, sq_grad, mulAt, residual, mulA, combo, vdot, vsum, vmul, vsub, vscale, vadd, half. cbn. repeat (f_equal; try lra). }
  assert (I1 : index_min g1 = O).
  { rewrite E1. destruct (HM [1 / 2; 1; 2]) as [L H]; [discriminate|]. pose proof (H O ltac:(cbn; lia)) as H0. cbn [length nth] in *.
    destruct (index_min [1 / 2; 1; 2]) as [|[|[|]]]; cbn in H0; try lra; try lia; reflexivity. }
  rewrite I1. cbn [drop_nth]. unfold mulA, vdot, vsum, vmul. cbn [map P_A map2 fold_left nadd nmul n0 RNum].
  match goal with |- context [solve ?x ?y] => replace (solve x y) with (solve [[1; 1; 0]; [0; 0; 1]] [2; 1; 2]) by (toR; apply f_equal2; [unfold P_atoms; cbn; leq|reflexivity]) end.
  destruct (solve [[1; 1; 0]; [0; 0; 1]] [2; 1; 2]) as [c|] eqn:E2; [|congruence].
  apply HS in E2; [|repeat constructor|reflexivity]. destruct E2 as [L2 H2]. specialize (H2 [3 / 2; 2] eq_refl).
  destruct c as [|c1 [|c2 [|]]]; try discriminate. unfold sqdist, lin in H2. cbn in H2.
  pose proof (Rle_0_sqr (c1 - 3 / 2)) as Q1. pose proof (Rle_0_sqr (c2 - 2)) as Q2. unfold Rsqr in Q1, Q2.
  assert (C1 : c1 = 3 / 2) by (apply Rminus_diag_uniq, Rsqr_0_uniq; unfold Rsqr; lra).
  assert (C2 : c2 = 2) by (apply Rminus_diag_uniq, Rsqr_0_uniq; unfold Rsqr; lra). subst c1 c2. clear Q1 Q2. clear H2 L2.
  match goal with |- context [nlt ?p ?q] => set (l1 := nlt (n := RN) p q) ; assert (EL : l1 = false) end.
  { unfold l1. rewrite (sq_eval_R mx). unfold combo, loss, sqdist, rowsR, dotR, vscale, vadd. cbn.
    match goal with |- Rltb ?p ?q = _ => destruct (Rltb_spec p q) as [X|X]; [exfalso; lra|reflexivity] end. }
  rewrite EL. clear EL l1.
  match goal with |- context [index_min ?l] => set (g2 := l) end.
  assert (E3 : g2 = [1; 2]).
  { unfold g2, gaps, recover, combo, sq_grad, mulAt, residual, mulA, combo, vdot, vsum, vmul, vsub, vscale, vadd, half. cbn. repeat (f_equal; try lra). }
  assert (I2 : index_min g2 = O).
  { rewrite E3. destruct (HM [1; 2]) as [L H]; [discriminate|]. pose proof (H O ltac:(cbn; lia)) as H0. cbn [length nth] in *.
    destruct (index_min [1; 2]) as [|[|]]; cbn in H0; try lra; try lia; reflexivity. }
  rewrite I2. cbn [drop_nth map P_A map2 fold_left nadd nmul n0 RNum].
  match goal with |- context [solve ?x ?y] => replace (solve x y) with (solve [[0; 0; 1]] [2; 1; 2]) by (toR; apply f_equal2; [unfold P_atoms; cbn; leq|reflexivity]) end.
  destruct (solve [[0; 0; 1]] [2; 1; 2]) as [c|] eqn:E4; [|congruence].
  apply HS in E4; [|repeat constructor|reflexivity]. destruct E4 as [L4 H4]. specialize (H4 [2] eq_refl).
  destruct c as [|c [|]]; try discriminate. unfold sqdist, lin in H4. cbn in H4. assert (C : c = 2) by nra. subst c.
  match goal with |- context [nlt ?p ?q] => set (l2 := nlt (n := RN) p q) ; assert (EL : l2 = false) end.
  { unfold l2. rewrite (sq_eval_R mx). unfold combo, loss, sqdist, rowsR, dotR, vscale, vadd. cbn.
    match goal with |- Rltb ?p ?q = _ => destruct (Rltb_spec p q) as [X|X]; [exfalso; lra|reflexivity] end. }
  rewrite EL. eexists. split; [reflexivity|]. unfold recover, combo. cbn. repeat (f_equal; try lra).
Qed.
End R.

(** ** Repeated UpdateSpan steps *)
Section I.
Variable mx : R.
Notation RN := (RNum mx).
Ltac toR := change (T (RNum mx)) with R in *.
Variables (d : nat) (A : list (list R)) (b : list R).
Hypothesis HA : Forall (fun row => length row = d) A.
Hypothesis Hb : length b = length A.
Variable solve : list (list R) -> list R -> option (list R).
Hypothesis Hsolve : least_squares (length A) solve.
Variable index_min : list R -> nat.
Hypothesis Hmin : arg_min index_min.
Notation iter := (span_iter (N := RN) d A b solve index_min).
Notation rec := (recover (N := RN) d).

Lemma iter_ok isPrune : forall ss x (a : atoms (N := RN)), okA mx d A a -> Forall (fun s => length s = d) ss -> iter isPrune ss x a <> More /\
  forall l, iter isPrune ss x a = Ret l -> length l = length ss /\
    forall k, (k < length l)%nat ->
      let a' := nth k l no_atoms in
      okA mx d A a' /\ incl (at_atoms a') (firstn (S k) ss ++ at_atoms a) /\
      (forall c, length c = length (at_atoms a') -> loss A b (rec a') <= loss A b (lin d (at_atoms a') c)) /\
      (x = rec a \/ (1 <= k)%nat -> loss A b (rec a') <= loss A b (rec (match k with O => a | S j => nth j l no_atoms end))).
Proof.
  induction ss as [|s ss IH]; intros x a OK FS.
  { split; [discriminate|]. intros l E. injection E as <-. split; [reflexivity|]. cbn. intros k Hk. lia. }
  pose proof (Forall_inv FS) as Ls. pose proof (Forall_inv_tail FS) as FS'. cbn [span_iter].
  destruct (span_ok mx d A b Hb solve Hsolve index_min Hmin isPrune x s a OK Ls) as [NM SP].
  destruct (span_update (N := RN) d A b solve index_min isPrune x s a) as [a1| |]; [|split; [discriminate|intros ? ?; discriminate]|congruence].
  destruct (SP a1 eq_refl) as (OK1 & NE1 & SUB & _ & BEST & best & B1 & _ & _ & B4 & B5). clear SP.
  destruct (IH (rec a1) a1 OK1 FS') as [NM1 R1].
  destruct (iter isPrune ss (rec a1) a1) as [l| |] eqn:EI; [|split; [discriminate|intros ? ?; discriminate]|congruence].
  split; [discriminate|]. intros l' E'. injection E' as <-. destruct (R1 l eq_refl) as [LL KK]. split; [cbn [length]; lia|].
  assert (IN1 : incl (at_atoms a1) (s :: at_atoms a)).
  { clear -SUB. induction SUB as [|y l k S IHS|y l k S IHS]; intros u Hu; [exact Hu|destruct Hu as [->|Hu]; [left; reflexivity|right; auto]|right; auto]. }
  intros [|k] Hk.
  - cbn [nth firstn app]. split; [exact OK1|]. split; [exact IN1|]. split; [exact BEST|]. intros [->|X]; [|lia].
    destruct isPrune; [|rewrite (B4 eq_refl); exact B1].
    eapply Rle_trans; [exact (B5 eq_refl)|]. apply Rmax_lub; lra.
  - cbn [nth length] in *. destruct (KK k ltac:(lia)) as (Ka & Kb & Kc & Kd). split; [exact Ka|]. split; [|split; [exact Kc|]].
    + intros u Hu. apply Kb in Hu. cbn [firstn app]. apply in_app_or in Hu as [Hu|Hu]; [right; apply in_or_app; left; exact Hu|].
      apply IN1 in Hu as [->|Hu]; [left; reflexivity|right; apply in_or_app; right; exact Hu].
    + intros _. destruct k as [|k]; apply Kd; left; reflexivity.
Qed.
End I.
