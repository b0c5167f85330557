(** Proofs about FuncSq, Atoms, UpdateSpan and UpdateFullCorrection. *)
From Coq Require Import List Arith Bool ZArith Reals Lra Lia.
From Verif.Base Require Import Num Vec Instances.
From Verif.Model Require Import Common Proximal Atoms.
From Verif.Spec Require Import LpSpec ProximalSpec AtomsSpec.
From Verif.Proof Require Import ProximalProof LpMore.
Import ListNotations.
Local Open Scope R_scope.

(** ** Lists of reals *)
Lemma dotR_comm a b : dotR a b = dotR b a.
Proof. unfold dotR. revert b. induction a as [|x a IH]; intros [|y b]; cbn; try lra. rewrite IH. lra. Qed.
Lemma dotR_sub : forall a u v, length u = length v -> dotR a (map2 Rminus u v) = dotR a u - dotR a v.
Proof.
  unfold dotR. induction a as [|x a IH]; intros [|y u] [|z v] L; cbn in *; try lra; try lia. rewrite IH by lia. lra.
Qed.
Lemma dotR_add : forall a u v, length u = length v -> dotR a (map2 Rplus u v) = dotR a u + dotR a v.
Proof.
  unfold dotR. induction a as [|x a IH]; intros [|y u] [|z v] L; cbn in *; try lra; try lia. rewrite IH by lia. lra.
Qed.
Lemma dotR_scale : forall c a u, dotR a (map (Rmult c) u) = c * dotR a u.
Proof. unfold dotR. intros c. induction a as [|x a IH]; intros [|y u]; cbn; try lra. rewrite IH. lra. Qed.
Lemma dotR_zero : forall a k, dotR a (repeat 0 k) = 0.
Proof. unfold dotR. induction a as [|x a IH]; intros [|k]; cbn; try lra. rewrite IH. lra. Qed.
Lemma sqdist_dot : forall u v, sqdist u v = dotR (map2 Rminus u v) (map2 Rminus u v).
Proof. unfold sqdist, dotR. induction u as [|x u IH]; intros [|y v]; cbn; try lra. rewrite IH. lra. Qed.
Lemma sqdist_nonneg : forall u v, 0 <= sqdist u v.
Proof. intros u v. rewrite sqdist_dot. generalize (map2 Rminus u v). unfold dotR. induction l as [|x l IH]; cbn; [lra|]. nra. Qed.
Lemma nth_eq (a b : list R) : length a = length b -> (forall j, (j < length a)%nat -> nth j a 0 = nth j b 0) -> a = b.
Proof. intros L H. apply (nth_ext a b 0 0 L H). Qed.
Lemma lin_len k cols c : length (lin k cols c) = k.
Proof. unfold lin. rewrite map_length, seq_length. reflexivity. Qed.
Lemma lin_nth k cols c j : (j < k)%nat -> nth j (lin k cols c) 0 = sumR (map2 (fun ci col => ci * nth j col 0) c cols).
Proof.
  intros H. unfold lin. rewrite (nth_indep _ 0 (sumR (map2 (fun ci col => ci * nth 0 col 0) c cols))) by (rewrite map_length, seq_length; exact H).
  rewrite (map_nth (fun j => sumR (map2 (fun ci col => ci * nth j col 0) c cols))). rewrite seq_nth by exact H. reflexivity.
Qed.
Lemma nth_map2 (f : R -> R -> R) : forall a b j, (j < length a)%nat -> (j < length b)%nat -> nth j (map2 f a b) 0 = f (nth j a 0) (nth j b 0).
Proof. induction a as [|x a IH]; intros [|y b] [|j] H1 H2; cbn in *; try lia; auto. apply IH; lia. Qed.

Section A.
Variable mx : R.
Notation RN := (RNum mx).
Ltac toR := change (T (RNum mx)) with R in *.

Lemma vdot_R : forall a b : list R, vdot (N := RN) a b = dotR a b.
Proof. intros a b. unfold vdot. rewrite vsum_sumR. reflexivity. Qed.

(** combinations *)
Lemma fold_len : forall k (l : list (list R)) acc, length acc = k -> Forall (fun v => length v = k) l ->
  length (fold_left (vadd (N := RN)) l acc) = k.
Proof.
  intros k l. induction l as [|v l IH]; intros acc L F; [exact L|]. inversion F as [|? ? Hv F']; subst. cbn [fold_left]. apply IH; [|exact F'].
  unfold vadd. etransitivity; [apply map2_length|]. toR. rewrite Hv. apply Nat.min_id.
Qed.
Lemma fold_dot : forall k (l : list (list R)) acc u, length acc = k -> Forall (fun v => length v = k) l ->
  dotR u (fold_left (vadd (N := RN)) l acc) = dotR u acc + sumR (map (dotR u) l).
Proof.
  intros k l. induction l as [|v l IH]; intros acc u L F; cbn [fold_left map sumR]; [lra|]. inversion F as [|? ? Hv F']; subst. rewrite IH.
  - change (vadd (N := RN) acc v) with (map2 Rplus acc v). rewrite dotR_add by (symmetry; exact Hv). lra.
  - unfold vadd. etransitivity; [apply map2_length|]. toR. rewrite Hv. apply Nat.min_id.
  - exact F'.
Qed.
Lemma scaled_len : forall k (cols : list (list R)) c, Forall (fun v => length v = k) cols ->
  Forall (fun v => length v = k) (map2 (vscale (N := RN)) c cols).
Proof.
  intros k cols c F. revert c. induction F as [|v cols Hv F IH]; intros [|x c]; cbn; constructor; [|apply IH].
  unfold vscale. rewrite map_length. exact Hv.
Qed.
Lemma combo_len : forall k (cols : list (list R)) c, Forall (fun v => length v = k) cols -> length (combo (N := RN) k cols c) = k.
Proof. intros k cols c F. unfold combo. apply fold_len; [apply repeat_length|apply scaled_len; exact F]. Qed.
Lemma dot_combo : forall k (cols : list (list R)) c u, Forall (fun v => length v = k) cols ->
  dotR u (combo (N := RN) k cols c) = sumR (map2 (fun ci col => ci * dotR u col) c cols).
Proof.
  intros k cols c u F. unfold combo. rewrite (fold_dot k) by (try apply repeat_length; apply scaled_len; exact F).
  change (n0 (n := RN)) with 0. rewrite dotR_zero, Rplus_0_l. clear F. revert c. induction cols as [|v cols IH]; intros [|x c]; cbn [map2 map sumR]; try reflexivity.
  rewrite IH. f_equal. change (vscale (N := RN) x v) with (map (Rmult x) v). apply dotR_scale.
Qed.
(** the j-th unit vector picks the j-th element *)
Lemma unit_dot : forall j k (v : list R), length v = k -> (j < k)%nat -> dotR (repeat 0 j ++ [1]) v = nth j v 0.
Proof.
  intros j k v <-. revert j. unfold dotR. induction v as [|x v IH]; intros j H; [cbn in H; lia|]. destruct j as [|j]; cbn.
  - destruct v; cbn; lra.
  - rewrite IH by (cbn in H; lia). lra.
Qed.
Lemma combo_lin : forall k (cols : list (list R)) c, Forall (fun v => length v = k) cols -> combo (N := RN) k cols c = lin k cols c.
Proof.
  intros k cols c F. pose proof (combo_len k cols c F) as L. toR. apply nth_eq; [rewrite lin_len; exact L|]. intros j Hj. assert (Hj' : (j < k)%nat) by (eapply Nat.lt_le_trans; [exact Hj|]; apply Nat.eq_le_incl; exact L). clear Hj. rename Hj' into Hj.
  rewrite <- (unit_dot j k) by assumption. rewrite dot_combo by exact F. rewrite lin_nth by exact Hj. clear L. revert c.
  induction F as [|v cols Hv F IH]; intros [|x c]; cbn [map2 sumR]; try reflexivity. rewrite IH. rewrite (unit_dot j k) by assumption. reflexivity.
Qed.
Lemma dot_lin : forall k (cols : list (list R)) c u, Forall (fun v => length v = k) cols ->
  dotR u (lin k cols c) = sumR (map2 (fun ci col => ci * dotR u col) c cols).
Proof. intros. rewrite <- combo_lin by assumption. apply dot_combo; assumption. Qed.

Variables (d : nat) (A : list (list R)) (b : list R).
Hypothesis HA : Forall (fun row => length row = d) A.
Hypothesis Hb : length b = length A.
Notation m := (length A).

Lemma mulA_R : forall x, mulA (N := RN) A x = rowsR A x.
Proof. intros x. unfold mulA, rowsR. apply map_ext. intros row. apply vdot_R. Qed.
Lemma rowsR_len x : length (rowsR A x) = m.
Proof. unfold rowsR. apply map_length. Qed.
Lemma rowsR_lin : forall cols c, Forall (fun v => length v = d) cols -> rowsR A (lin d cols c) = lin m (map (rowsR A) cols) c.
Proof.
  intros cols c F. apply nth_eq; [rewrite rowsR_len, lin_len; reflexivity|]. intros j Hj. rewrite rowsR_len in Hj. rewrite lin_nth by exact Hj.
  unfold rowsR at 1. rewrite (nth_indep _ 0 (dotR [] (lin d cols c))) by (rewrite map_length; exact Hj).
  rewrite (map_nth (fun row => dotR row (lin d cols c))). rewrite dot_lin by exact F. clear F. revert c.
  induction cols as [|v cols IH]; intros [|x c]; cbn [map map2 sumR]; try reflexivity. rewrite IH. f_equal. f_equal.
  unfold rowsR. rewrite (nth_indep (map _ A) 0 (dotR [] v)) by (rewrite map_length; exact Hj). rewrite (map_nth (fun row => dotR row v)). reflexivity.
Qed.
Lemma residual_R x : residual (N := RN) A b x = map2 Rminus (rowsR A x) b.
Proof. unfold residual. rewrite mulA_R. reflexivity. Qed.
Lemma half_R : half (N := RN) = / 2.
Proof. unfold half. cbn. lra. Qed.
Lemma sq_eval_R x : sq_eval (N := RN) A b x = loss A b x.
Proof. unfold sq_eval, loss. rewrite vdot_R, residual_R, half_R, sqdist_dot. reflexivity. Qed.
(** A' r paired with u is r paired with A u *)
Lemma grad_dot x u : dotR (sq_grad (N := RN) d A b x) u = dotR (map2 Rminus (rowsR A x) b) (rowsR A u).
Proof.
  unfold sq_grad, mulAt. rewrite residual_R, dotR_comm. toR. rewrite dot_combo by exact HA.
  generalize (map2 Rminus (rowsR A x) b). clear. intros r. revert r. induction A as [|row l IH]; intros [|y r]; try reflexivity.
  change (dotR (y :: r) (rowsR (row :: l) u)) with (y * dotR row u + dotR r (rowsR l u)). cbn [map2 sumR].
  rewrite IH, (dotR_comm u row). reflexivity.
Qed.
Lemma grad_len x : length (sq_grad (N := RN) d A b x) = d.
Proof. unfold sq_grad, mulAt. apply combo_len. exact HA. Qed.

(** the loss is quadratic, with this gradient *)
Lemma loss_expand x u : length x = d -> length u = d ->
  loss A b (map2 Rplus x u) = loss A b x + dotR (sq_grad (N := RN) d A b x) u + dotR (rowsR A u) (rowsR A u) / 2.
Proof.
  intros Lx Lu. rewrite grad_dot. unfold loss. rewrite !sqdist_dot.
  assert (E : rowsR A (map2 Rplus x u) = map2 Rplus (rowsR A x) (rowsR A u)).
  { unfold rowsR. clear -Lx Lu. induction A as [|row l IH]; cbn [map map2]; [reflexivity|]. rewrite IH. f_equal. apply dotR_add. lia. }
  rewrite E. pose proof (rowsR_len x) as L1. pose proof (rowsR_len u) as L2. revert L1 L2 Hb. generalize (rowsR A x) (rowsR A u). generalize (length A). clear.
  intros k p q L1 L2 L3. subst k. rename L3 into L1. revert q b L1 L2. unfold dotR. induction p as [|x p IH]; intros [|y q] [|z c] L1 L2; cbn in *; try lia; try lra.
  specialize (IH q c ltac:(lia) ltac:(lia)). lra.
Qed.

(** ** Atoms *)
Notation atoms := (atoms (N := RN)).
Definition okA (a : atoms) : Prop :=
  Forall (fun v => length v = d) (at_atoms a) /\ length (at_coeffs a) = length (at_atoms a) /\
  at_sq a = map (fun v => dotR (rowsR A v) (rowsR A v)) (at_atoms a).
Notation recover := (recover (N := RN) d).
Lemma recover_R (a : atoms) : okA a -> recover a = lin d (at_atoms a) (at_coeffs a).
Proof. intros (F & _). apply combo_lin. exact F. Qed.
Lemma ok_none : okA no_atoms.
Proof. repeat split. constructor. Qed.
Lemma dot_self_nonneg u : 0 <= dotR u u.
Proof. unfold dotR. induction u as [|x u IH]; cbn; [lra|]. nra. Qed.
Lemma sq_term_R v : sq_term (N := RN) A v = dotR (rowsR A v) (rowsR A v).
Proof. unfold sq_term. rewrite !mulA_R, vdot_R. cbn. apply sqrt_sqrt. apply dot_self_nonneg. Qed.
Lemma ok_add v c (a : atoms) : length v = d -> okA a ->
  okA (add_atom (N := RN) A v c a) /\ at_atoms (add_atom (N := RN) A v c a) = v :: at_atoms a /\
  at_coeffs (add_atom (N := RN) A v c a) = c :: at_coeffs a.
Proof.
  intros Lv (F & L & Q). unfold add_atom, okA. destruct a as [at_ co sq]. cbn [at_atoms at_coeffs at_sq] in *. subst sq. destruct at_ as [|u l]; cbn [at_atoms at_coeffs at_sq].
  - destruct co; [|discriminate]. rewrite sq_term_R. repeat split. constructor; [exact Lv|constructor].
  - rewrite sq_term_R. split; [|split; reflexivity]. split; [constructor; assumption|]. split; [cbn [length] in *; f_equal; exact L|reflexivity].
Qed.
Lemma lin_zero k v cols c : lin k (v :: cols) (0 :: c) = lin k cols c.
Proof. unfold lin. apply map_ext. intros j. cbn [map2 sumR]. lra. Qed.

Variable solve : list (list R) -> list R -> option (list R).
Hypothesis Hsolve : least_squares m solve.

Lemma cols_len cols : Forall (fun v => length v = m) (map (rowsR A) cols).
Proof. apply Forall_forall. intros v H. apply in_map_iff in H as (u & <- & _). apply rowsR_len. Qed.
Lemma solved cols c : Forall (fun v => length v = d) cols -> solve (map (mulA (N := RN) A) cols) b = Some c ->
  length c = length cols /\ forall c', length c' = length cols -> loss A b (lin d cols c) <= loss A b (lin d cols c').
Proof.
  intros F E. rewrite (map_ext _ _ mulA_R) in E.
  destruct (Hsolve (map (rowsR A) cols) b c (cols_len cols) Hb E) as [L H]. rewrite map_length in L, H. split; [exact L|].
  intros c' L'. unfold loss. rewrite !rowsR_lin by exact F. specialize (H c' L'). lra.
Qed.

Variable index_min : list R -> nat.
Hypothesis Hmin : arg_min index_min.

Lemma drop_len {X} : forall i (l : list X), (i < length l)%nat -> length (drop_nth i l) = (length l - 1)%nat.
Proof. induction i as [|i IH]; intros [|x l] H; cbn in *; try lia. rewrite IH by lia. lia. Qed.
Lemma drop_sub {X} : forall (l : list X) i, sublist (drop_nth i l) l.
Proof.
  assert (R : forall l : list X, sublist l l) by (induction l; constructor; assumption).
  induction l as [|x l IH]; intros [|i]; cbn; try constructor; auto.
Qed.
Lemma sub_refl {X} (l : list X) : sublist l l.
Proof. induction l; constructor; assumption. Qed.
Lemma sub_trans {X} : forall l k j : list X, sublist l k -> sublist k j -> sublist l j.
Proof.
  intros l k j H1 H2. revert l H1. induction H2 as [|x k j H2 IH|x k j H2 IH]; intros l H1; [exact H1| |constructor; auto].
  inversion H1; subst; [apply sub_keep; auto|apply sub_drop; auto].
Qed.
Lemma sub_Forall {X} (P : X -> Prop) l k : sublist l k -> Forall P k -> Forall P l.
Proof. induction 1; intros F; inversion F; subst; auto. Qed.
Lemma drop_map {X Y} (f : X -> Y) : forall l i, drop_nth i (map f l) = map f (drop_nth i l).
Proof. induction l as [|x l IH]; intros [|i]; cbn; try reflexivity. rewrite IH. reflexivity. Qed.

Notation prune_loop := (prune_loop (N := RN) d A b solve index_min).
Lemma gaps_len sqt (a : atoms) : okA a -> length sqt = length (at_atoms a) -> length (gaps (N := RN) d A b sqt a) = length (at_atoms a).
Proof.
  intros (F & L & _) H. unfold gaps, vsub, vmul. etransitivity; [apply map2_length|]. rewrite map2_length, map_length. toR. lia.
Qed.
(** the pruning loop: what it removes is justified *)
Lemma prune_loop_ok F : forall k sqt (a : atoms), okA a -> length sqt = length (at_atoms a) -> (length (at_atoms a) <= S k)%nat ->
  at_atoms a <> [] ->
  prune_loop k F sqt a <> More /\
  forall a', prune_loop k F sqt a = Ret a' ->
    okA a' /\ sublist (at_atoms a') (at_atoms a) /\ at_atoms a' <> [] /\
    (a' = a \/ loss A b (recover a') <= F /\
       forall c, length c = length (at_atoms a') -> loss A b (recover a') <= loss A b (lin d (at_atoms a') c)).
Proof.
  induction k as [|k IH]; intros sqt a OK LS LK NE; cbn [Atoms.prune_loop].
  - destruct (Nat.leb_spec (length (at_atoms a)) 1) as [Q|Q]; [|(toR; lia)]. split; [discriminate|]. intros a' E. injection E as <-.
    split; [exact OK|]. split; [apply sub_refl|]. auto.
  - destruct (Nat.leb_spec (length (at_atoms a)) 1) as [Q|Q].
    { split; [discriminate|]. intros a' E. injection E as <-. split; [exact OK|]. split; [apply sub_refl|]. auto. }
    set (g := gaps (N := RN) d A b sqt a). pose proof (gaps_len sqt a OK LS) as LG. fold g in LG. toR.
    assert (GN : g <> []) by (intros E; rewrite E in LG; cbn in LG; (toR; lia)).
    destruct (Hmin g GN) as [HI _]. rewrite LG in HI. set (i := index_min g) in *.
    destruct OK as (FA & LC & SQ).
    assert (FN : Forall (fun v => length v = d) (drop_nth i (at_atoms a))) by (apply (sub_Forall _ _ _ (drop_sub (at_atoms a) i)); exact FA).
    match goal with |- context [solve ?x ?y] => destruct (solve x y) as [c|] eqn:E end; [|split; [discriminate|intros ? ?; discriminate]].
    destruct (solved _ c FN E) as [LC' BEST].
    cbn [nlt RNum]. match goal with |- context [Rltb F ?v] => destruct (Rltb_spec F v) as [G|G] end.
    { split; [discriminate|]. intros a' E'. injection E' as <-. split; [repeat split; assumption|]. split; [apply sub_refl|]. auto. }
    set (a1 := {| at_atoms := drop_nth i (at_atoms a); at_coeffs := c; at_sq := drop_nth i (at_sq a) |}).
    assert (OK1 : okA a1). { split; [exact FN|]. split; [exact LC'|]. cbn [a1 at_sq at_atoms]. rewrite SQ. apply drop_map. }
    assert (L1 : length (at_atoms a1) = (length (at_atoms a) - 1)%nat) by (apply drop_len; exact HI).
    assert (R1 : loss A b (recover a1) <= F). { rewrite sq_eval_R in G. apply Rnot_lt_le. exact G. }
    destruct (IH (drop_nth i sqt) a1 OK1) as [T1 T2].
    + etransitivity; [apply drop_len; toR; rewrite LS; exact HI|]. etransitivity; [|symmetry; exact L1]. toR. rewrite LS. reflexivity.
    + (toR; lia).
    + intros E0. rewrite E0 in L1. cbn in L1. (toR; lia).
    + split; [exact T1|]. intros a' E'. destruct (T2 a' E') as (O' & S' & N' & D'). split; [exact O'|].
      split; [apply (sub_trans _ _ _ S'); apply drop_sub|]. split; [exact N'|]. right. destruct D' as [->|D']; [|exact D'].
      split; [exact R1|]. intros c' Lc'. rewrite (recover_R a1 OK1). apply BEST. exact Lc'.
Qed.
Lemma first_sq_len (a : atoms) : okA a -> length (first_sq (N := RN) a) = length (at_atoms a).
Proof. intros (F & L & Q). unfold first_sq. etransitivity; [apply map2_length|]. rewrite Q, map_length. toR. (toR; lia). Qed.

(** the first gap is what removing the atom costs *)
Lemma lin_without : forall k cols c j, Forall (fun v => length v = k) cols -> length c = length cols -> (j < length cols)%nat ->
  map2 Rplus (lin k cols c) (map (Rmult (- nth j c 0)) (nth j cols [])) = lin k (drop_nth j cols) (drop_nth j c).
Proof.
  intros k cols c j F L H. assert (LN : length (nth j cols []) = k) by (rewrite Forall_forall in F; apply F; apply nth_In; exact H).
  apply nth_eq.
  - rewrite map2_length, lin_len, map_length, lin_len, LN. apply Nat.min_id.
  - intros p Hp. rewrite map2_length, lin_len, map_length, LN, Nat.min_id in Hp.
    rewrite nth_map2 by (rewrite ?lin_len, ?map_length; (toR; lia)). rewrite !lin_nth by exact Hp.
    rewrite (nth_indep (map _ _) 0 (Rmult (- nth j c 0) 0)) by (rewrite map_length; (toR; lia)). rewrite (map_nth (Rmult (- nth j c 0))).
    clear F LN. revert c j L H. induction cols as [|v cols IH]; intros [|x c] j L H; cbn in H, L; try (toR; lia). destruct j as [|j]; cbn [drop_nth map2 sumR nth].
    + lra.
    + specialize (IH c j ltac:((toR; lia)) ltac:((toR; lia))). lra.
Qed.
Lemma first_gap (a : atoms) j : okA a -> (j < length (at_atoms a))%nat ->
  nth j (gaps (N := RN) d A b (first_sq (N := RN) a) a) 0 =
  loss A b (lin d (drop_nth j (at_atoms a)) (drop_nth j (at_coeffs a))) - loss A b (recover a).
Proof.
  intros OK H. pose proof OK as (F & L & Q). pose proof (first_sq_len a OK) as LF. rewrite <- lin_without by assumption. rewrite <- (recover_R a OK).
  assert (LN : length (nth j (at_atoms a) []) = d) by (rewrite Forall_forall in F; apply F; apply nth_In; exact H).
  rewrite loss_expand.
  2: { rewrite (recover_R a OK). apply lin_len. }
  2: { rewrite map_length. exact LN. }
  assert (RS : forall c v, rowsR A (map (Rmult c) v) = map (Rmult c) (rowsR A v)).
  { intros c v. unfold rowsR. rewrite map_map. apply map_ext. intros row. apply dotR_scale. }
  rewrite RS, !dotR_scale. rewrite (dotR_comm (map _ _)), dotR_scale.
  unfold gaps. change (vsub (N := RN)) with (map2 Rminus). change (vmul (N := RN)) with (map2 Rmult). toR.
  rewrite nth_map2; [|rewrite LF; exact H|rewrite map2_length, map_length, L, Nat.min_id; exact H].
  rewrite nth_map2; [|rewrite L; exact H|rewrite map_length; exact H].
  unfold first_sq. change (fun s c : R => nmul (n := RN) (nmul (n := RN) (half (N := RN)) s) (nmul (n := RN) c c)) with (fun s c : R => half (N := RN) * s * (c * c)).
  rewrite nth_map2; [|rewrite Q, map_length; exact H|rewrite L; exact H].
  rewrite half_R, Q. rewrite (nth_indep (map _ (at_atoms a)) 0 ((fun v => dotR (rowsR A v) (rowsR A v)) [])) by (rewrite map_length; exact H).
  rewrite (map_nth (fun v => dotR (rowsR A v) (rowsR A v))).
  rewrite (nth_indep (map (fun t => vdot (N := RN) (sq_grad (N := RN) d A b (recover a)) t) (at_atoms a)) 0 (vdot (N := RN) (sq_grad (N := RN) d A b (recover a)) [])) by (rewrite map_length; exact H).
  rewrite (map_nth (fun t => vdot (N := RN) (sq_grad (N := RN) d A b (recover a)) t)). rewrite vdot_R. cbn [nmul RNum]. toR. lra.
Qed.

(** ** UpdateSpan *)
Lemma quarter_R : quarter (N := RN) = / 4.
Proof. unfold quarter. rewrite half_R. cbn. lra. Qed.
Lemma span_ok isPrune old s (a : atoms) : okA a -> length s = d ->
  span_update (N := RN) d A b solve index_min isPrune old s a <> More /\
  forall a', span_update (N := RN) d A b solve index_min isPrune old s a = Ret a' ->
    okA a' /\ at_atoms a' <> [] /\ sublist (at_atoms a') (s :: at_atoms a) /\
    (isPrune = false -> at_atoms a' = s :: at_atoms a) /\
    (forall c, length c = length (at_atoms a') -> loss A b (recover a') <= loss A b (lin d (at_atoms a') c)) /\
    exists best, best <= loss A b (recover a) /\
      (exists c, length c = S (length (at_atoms a)) /\ best = loss A b (lin d (s :: at_atoms a) c)) /\
      (forall c, length c = S (length (at_atoms a)) -> best <= loss A b (lin d (s :: at_atoms a) c)) /\
      (isPrune = false -> loss A b (recover a') = best) /\
      (isPrune = true -> loss A b (recover a') <= Rmax best (/ 4 * loss A b old + 3 / 4 * best)).
Proof.
  intros OK Ls. unfold span_update. destruct (ok_add s 0 a Ls OK) as (OK1 & EA & EC). change (n0 (n := RN)) with 0.
  set (a1 := add_atom (N := RN) A s 0 a) in *. pose proof OK1 as (F1 & L1 & Q1).
  match goal with |- context [solve ?x ?y] => destruct (solve x y) as [c|] eqn:E end; [|split; [discriminate|intros ? ?; discriminate]].
  destruct (solved _ c F1 E) as [LC BEST].
  set (a2 := {| at_atoms := at_atoms a1; at_coeffs := c; at_sq := at_sq a1 |}).
  assert (OK2 : okA a2) by (split; [exact F1|]; split; [exact LC|exact Q1]).
  assert (R2 : loss A b (recover a2) = loss A b (lin d (at_atoms a1) c)) by (rewrite (recover_R a2 OK2); reflexivity).
  assert (LE : loss A b (recover a2) <= loss A b (recover a)).
  { rewrite R2, (recover_R a OK). apply Rle_trans with (loss A b (lin d (at_atoms a1) (0 :: at_coeffs a))).
    - apply BEST. toR. rewrite EA. cbn [length]. f_equal. apply OK.
    - right. toR. rewrite EA. rewrite lin_zero. reflexivity. }
  rewrite EA in R2, BEST, LC. cbn [length] in BEST, LC.
  destruct isPrune.
  - set (F := nadd (n := RN) _ _). assert (EF : F = / 4 * loss A b old + 3 / 4 * loss A b (recover a2)).
    { unfold F. rewrite !sq_eval_R, quarter_R, half_R. cbn. lra. }
    unfold prune. destruct (prune_loop_ok F (length (at_atoms a2)) (first_sq (N := RN) a2) a2 OK2 (first_sq_len a2 OK2) (le_S _ _ (le_n _))) as [T1 T2].
    { cbn [a2 at_atoms]. rewrite EA. discriminate. }
    split; [exact T1|]. intros a' E'. destruct (T2 a' E') as (O' & S' & N' & D'). cbn [a2 at_atoms] in S'. rewrite EA in S'.
    split; [exact O'|]. split; [exact N'|]. split; [exact S'|]. split; [discriminate|]. split.
    { destruct D' as [->|[_ D']]; [|exact D']. intros c' Lc'. rewrite R2. change (at_atoms a2) with (at_atoms a1) in *. toR. rewrite EA in Lc' |- *. apply BEST. exact Lc'. }
    exists (loss A b (recover a2)). split; [exact LE|]. split; [exists c; split; [exact LC|exact R2]|]. split; [rewrite R2; exact BEST|].
    split; [discriminate|]. intros _. destruct D' as [->|[D' _]]; [apply Rmax_l|]. rewrite EF in D'. eapply Rle_trans; [exact D'|apply Rmax_r].
  - split; [discriminate|]. intros a' E'. injection E' as <-. split; [exact OK2|]. cbn [a2 at_atoms] in *. rewrite EA in *.
    split; [discriminate|]. split; [apply sub_refl|]. split; [reflexivity|]. split; [intros c' Lc'; rewrite R2; apply BEST; exact Lc'|].
    exists (loss A b (recover a2)). split; [exact LE|]. split; [exists c; split; [exact LC|exact R2]|]. split; [rewrite R2; exact BEST|].
    split; [reflexivity|discriminate].
Qed.
End A.
