(** C66: the Frank-Wolfe update rules that keep atoms. *)
From Coq Require Import List Arith Bool ZArith Reals Lra Lia.
From Verif.Base Require Import Num Vec Instances.
From Verif.Model Require Import Common Proximal Atoms.
From Verif.Spec Require Import LpSpec ProximalSpec AtomsSpec.
From Verif.Proof Require Import ProximalProof AtomsProof AtomsFull.
Import ListNotations.
Local Open Scope R_scope.

Section C66.
(** Over the reals (mx is only the largest number of the type).  FuncSq(A, b) with any number of
    rows and columns. *)
Variable mx : R.
Notation RN := (RNum mx).
Notation atoms := (atoms (N := RN)).
Variables (d : nat) (A : list (list R)) (b : list R).
Hypothesis HA : Forall (fun row => length row = d) A.
Hypothesis Hb : length b = length A.
Notation rec := (recover (N := RN) d).
Notation f := (loss A b).
(** what every sequence of AddAtom, PruneSupport and ProjectedGradientEnhancement calls keeps *)
Definition well_formed (a : atoms) : Prop :=
  Forall (fun v => length v = d) (at_atoms a) /\ length (at_coeffs a) = length (at_atoms a) /\
  at_sq a = map (fun v => dotR (rowsR A v) (rowsR A v)) (at_atoms a).

(** FuncSq: Evaluate is (1/2)|Ax - b|^2, and Gradient is its gradient: the remainder is quadratic. *)
Theorem C66_func_sq (x u : list R) : length x = d -> length u = d ->
  sq_eval (N := RN) A b x = f x /\ length (sq_grad (N := RN) d A b x) = d /\
  f (map2 Rplus x u) = f x + dotR (sq_grad (N := RN) d A b x) u + dotR (rowsR A u) (rowsR A u) / 2.
Proof.
  intros Lx Lu. split; [apply sq_eval_R|]. split; [apply grad_len; exact HA|]. apply loss_expand; assumption.
Qed.

(** AddAtom puts the atom in front; RecoverVector is the combination of the atoms. *)
Theorem C66_atoms :
  well_formed no_atoms /\
  forall v c (a : atoms), length v = d -> well_formed a ->
    let a' := add_atom (N := RN) A v c a in
    well_formed a' /\ at_atoms a' = v :: at_atoms a /\ at_coeffs a' = c :: at_coeffs a /\
    rec a' = lin d (v :: at_atoms a) (c :: at_coeffs a).
Proof.
  split; [apply ok_none|]. intros v c a Lv W. destruct (ok_add mx d A v c a Lv W) as (O & E1 & E2).
  split; [exact O|]. split; [exact E1|]. split; [exact E2|]. rewrite <- E1, <- E2. apply (recover_R mx d A). exact O.
Qed.

(** UpdateSpan, with any least-squares solver and any index_min.  Without pruning the result is
    best among all combinations of the atoms and the new direction.  With pruning some atoms are
    left out, at least one is kept, the result is best for those kept, and it is no worse than
    the larger of the best and 1/4 f(old) + 3/4 best. *)
Theorem C66_update_span solve index_min isPrune old s (a : atoms) :
  least_squares (length A) solve -> arg_min index_min -> well_formed a -> length s = d ->
  span_update (N := RN) d A b solve index_min isPrune old s a <> More /\
  forall a', span_update (N := RN) d A b solve index_min isPrune old s a = Ret a' ->
    well_formed a' /\ at_atoms a' <> [] /\ sublist (at_atoms a') (s :: at_atoms a) /\
    (isPrune = false -> at_atoms a' = s :: at_atoms a) /\
    (forall c, length c = length (at_atoms a') -> f (rec a') <= f (lin d (at_atoms a') c)) /\
    exists best, best <= f (rec a) /\
      (exists c, length c = S (length (at_atoms a)) /\ best = f (lin d (s :: at_atoms a) c)) /\
      (forall c, length c = S (length (at_atoms a)) -> best <= f (lin d (s :: at_atoms a) c)) /\
      (isPrune = false -> f (rec a') = best) /\
      (isPrune = true -> f (rec a') <= Rmax best (/ 4 * f old + 3 / 4 * best)).
Proof. intros HS HM. apply span_ok; assumption. Qed.

(** Pruning, first pass: the number compared for each atom is what leaving it out costs, the
    other coefficients kept. *)
Theorem C66_first_gap (a : atoms) j : well_formed a -> (j < length (at_atoms a))%nat ->
  nth j (gaps (N := RN) d A b (first_sq (N := RN) a) a) 0 =
  f (lin d (drop_nth j (at_atoms a)) (drop_nth j (at_coeffs a))) - f (rec a).
Proof. apply first_gap; assumption. Qed.

(** Repeated UpdateSpan steps from any point x: every point is a combination of directions seen so far,
    the best one for the atoms kept, and from the second step on the objective never rises. *)
Theorem C66_span_run solve index_min isPrune (ss : list (list R)) (x : list R) :
  least_squares (length A) solve -> arg_min index_min -> Forall (fun s => length s = d) ss ->
  span_iter (N := RN) d A b solve index_min isPrune ss x no_atoms <> More /\
  forall l, span_iter (N := RN) d A b solve index_min isPrune ss x no_atoms = Ret l -> length l = length ss /\
    forall k, (k < length l)%nat -> let a' := nth k l no_atoms in
      incl (at_atoms a') (firstn (S k) ss) /\
      (forall c, length c = length (at_atoms a') -> f (rec a') <= f (lin d (at_atoms a') c)) /\
      ((1 <= k)%nat -> f (rec a') <= f (rec (nth (k - 1) l no_atoms))).
Proof.
  intros HS HM FS. destruct (iter_ok mx d A b Hb solve HS index_min HM isPrune ss x no_atoms (ok_none mx d A) FS) as [H1 H2].
  split; [exact H1|]. intros l E. destruct (H2 l E) as [L K]. split; [exact L|]. intros k Hk. destruct (K k Hk) as (_ & I & B & D).
  rewrite app_nil_r in I. split; [exact I|]. split; [exact B|]. intros H. destruct k as [|k]; [lia|]. cbn [Nat.sub]. rewrite Nat.sub_0_r. apply D. right. exact H.
Qed.

(** UpdateFullCorrection always returns; it keeps every atom and adds the new one; the coefficients
    have 1-norm at most tau; they come from those of the line search by at most 99 passes of projected
    gradient descent, which stop after the first that gains less than tol. *)
Theorem C66_update_full_correction sortd tau eta tol old s (a : atoms) :
  sorts_down sortd -> 0 <= tau -> well_formed a -> length s = d ->
  let g := full_gamma (N := RN) A b tau old s in
  exists a', full_update (N := RN) d A b sortd tau eta tol old s a = Ret a' /\ well_formed a' /\
    at_atoms a' = s :: at_atoms a /\ norm1 (at_coeffs a') <= tau /\
    passes (fun c => f (lin d (s :: at_atoms a) c)) (coef_grad d A b (s :: at_atoms a)) tau eta tol 99
      (g * tau :: map (Rmult (1 - g)) (at_coeffs a)) (at_coeffs a').
Proof. intros HS Ht W Ls. apply full_ok; assumption. Qed.

(** The line search of UpdateFullCorrection: if the direction changes A x, the step is at most 1 and
    the best such; and if the old point is the combination of the atoms, the passes start there. *)
Theorem C66_line_search tau old s (a : atoms) : length old = d -> length s = d ->
  let v := map2 Rminus (map (Rmult tau) s) old in
  let g := full_gamma (N := RN) A b tau old s in
  (0 < dotR (rowsR A v) (rowsR A v) ->
    g <= 1 /\ forall t, t <= 1 -> f (map2 Rplus old (map (Rmult g) v)) <= f (map2 Rplus old (map (Rmult t) v))) /\
  (well_formed a -> old = rec a ->
    lin d (s :: at_atoms a) (g * tau :: map (Rmult (1 - g)) (at_coeffs a)) = map2 Rplus old (map (Rmult g) v)).
Proof.
  intros Lo Ls v g. split; [apply (gamma_ok mx d A b HA Hb); assumption|]. intros W E. unfold v. rewrite E. apply (start_point mx d A b); assumption.
Qed.
End C66.

(** Refuted: "an UpdateSpan step never makes the objective larger".  The first one forgets the
    starting point: from (3, 2) with A the identity and b = (3, 3) the objective goes from 1/2 to
    9/2, whatever solver is used. *)
Theorem C66_span_descends_refuted mx solve index_min : least_squares 2 solve ->
  let A := [[1; 0]; [0; 1]] in
  span_update (N := RNum mx) 2 A [3; 3] solve index_min false [3; 2] [0; 1] no_atoms = Bad \/
  exists a', span_update (N := RNum mx) 2 A [3; 3] solve index_min false [3; 2] [0; 1] no_atoms = Ret a' /\
    loss A [3; 3] [3; 2] = 1 / 2 /\ loss A [3; 3] (recover (N := RNum mx) 2 a') = 9 / 2.
Proof. apply span_first_worse. Qed.

(** Refuted: "UpdateSpan stays in the constraint set".  The direction 1 is in the unit ball; the
    new point is 10. *)
Theorem C66_span_feasible_refuted mx solve index_min isPrune x a' : least_squares 1 solve ->
  span_update (N := RNum mx) 1 [[1]] [10] solve index_min isPrune x [1] no_atoms = Ret a' ->
  recover (N := RNum mx) 1 a' = [10].
Proof. apply span_leaves. Qed.

(** Refuted: "PruneSupport always leaves out the atom that costs least".  The costs are computed
    once, from the coefficients before the first pass: with the atoms (1,0,0), (1,1,0), (0,0,1) and
    b = (2, 1, 2) it leaves out the first, then the second, and ends with objective 5/2; leaving
    out the third instead gives 9/4. *)
Theorem C66_prune_cheapest_refuted mx solve index_min : least_squares 3 solve -> arg_min index_min ->
  solve [[1; 1; 0]; [0; 0; 1]] [2; 1; 2] <> None -> solve [[0; 0; 1]] [2; 1; 2] <> None ->
  (exists a', prune (N := RNum mx) 3 P_A [2; 1; 2] solve index_min 4
    (Build_atoms (N := RNum mx) [[1; 0; 0]; [1; 1; 0]; [0; 0; 1]] [1; 1; 2] [1; 2; 1]) = Ret a' /\
    recover (N := RNum mx) 3 a' = [0; 0; 2]) /\ loss P_A [2; 1; 2] [0; 0; 2] = 5 / 2 /\
  loss P_A [2; 1; 2] (lin 3 [[1; 1; 0]] [3 / 2]) = 9 / 4.
Proof. apply prune_stale. Qed.

(** Refuted: "UpdateFullCorrection ends no worse than its line search".  For one variable, A = 1,
    b = 10, tau = 2, the line search reaches the best point 2; every positive step size makes
    the projection return 0, and the update ends there. *)
Theorem C66_full_correction_improves_refuted mx sortd eta tol : sorts_down sortd -> 0 < eta -> - 18 < tol ->
  exists a', full_update (N := RNum mx) 1 [[1]] [10] sortd 2 eta tol [0] [1] no_atoms = Ret a' /\
    recover (N := RNum mx) 1 a' = [0] /\ loss [[1]] [10] [0] = 50 /\ loss [[1]] [10] [2] = 32.
Proof. apply full_stuck. Qed.

(** A case that meets the hypotheses: a solver for one column, and one UpdateSpan step. *)
Definition solve1 (cols : list (list R)) (b : list R) : option (list R) :=
  match cols with
  | [v] => match Req_EM_T (dotR v v) 0 with left _ => None | right _ => Some [dotR v b / dotR v v] end
  | _ => None
  end.
Lemma one_column m (v b : list R) c : length v = m -> length b = m ->
  sqdist (lin m [v] [c]) b = c * c * dotR v v - 2 * c * dotR v b + dotR b b.
Proof.
  intros Lv Lb. assert (E : lin m [v] [c] = map (Rmult c) v).
  { apply nth_eq; [rewrite lin_len, map_length; symmetry; exact Lv|]. intros j Hj. rewrite lin_len in Hj. rewrite lin_nth by exact Hj. cbn [map2 sumR].
    rewrite (nth_indep (map _ _) 0 (Rmult c 0)) by (rewrite map_length, Lv; exact Hj). rewrite (map_nth (Rmult c)). lra. }
  rewrite E. clear E. subst m. revert b Lb. unfold sqdist, dotR. induction v as [|x v IH]; intros [|y b] Lb; try discriminate; cbn in *; [lra|].
  rewrite IH by lia. lra.
Qed.
Example C66_solver m : least_squares m solve1.
Proof.
  intros cols b c F Lb E. destruct cols as [|v [|]]; try discriminate. cbn in E. destruct (Req_EM_T _ _) as [|NZ]; [discriminate|]. injection E as <-.
  pose proof (Forall_inv F) as Lv. split; [reflexivity|]. intros [|c' [|]] L; try discriminate. rewrite !one_column by assumption.
  assert (P : 0 < dotR v v) by (pose proof (dot_self_nonneg v); lra). set (q := dotR v v) in *. set (p := dotR v b).
  assert (E : p = (p / q) * q) by (field; exact NZ). set (t := p / q) in *. rewrite E.
  pose proof (Rle_0_sqr (c' - t)) as S. unfold Rsqr in S. assert (S2 : 0 <= (c' - t) * (c' - t) * q) by (apply Rmult_le_pos; lra). lra.
Qed.
Example C66_step mx : exists a', span_update (N := RNum mx) 1 [[2]] [6] solve1 (fun _ => O) true [0] [1] no_atoms = Ret a' /\
  recover (N := RNum mx) 1 a' = [3].
Proof.
  unfold span_update. cbn [add_atom no_atoms at_atoms at_sq map]. unfold mulA, vdot, vsum, vmul. cbn.
  destruct (Req_EM_T _ _) as [E|E]; [exfalso; unfold dotR in E; cbn in E; lra|].
  eexists. split; [reflexivity|]. unfold recover, combo, dotR. cbn. f_equal. field.
Qed.

Example C66_span_descends_case mx :
  span_update (N := RNum mx) 2 [[1; 0]; [0; 1]] [3; 3] solve1 (fun _ => O) false [3; 2] [0; 1] no_atoms <> Bad.
Proof.
  unfold span_update. cbn [add_atom no_atoms at_atoms at_sq map]. unfold mulA, vdot, vsum, vmul. cbn.
  destruct (Req_EM_T _ _) as [E|E]; [exfalso; unfold dotR in E; cbn in E; lra|discriminate].
Qed.
(** The case of [C66_prune_cheapest_refuted]: a solver for the two problems that come up. *)
Definition solve2 (cols : list (list R)) (b : list R) : option (list R) :=
  let eqd := list_eq_dec (list_eq_dec Req_EM_T) in
  if list_eq_dec Req_EM_T b [2; 1; 2] then
    if eqd cols [[1; 1; 0]; [0; 0; 1]] then Some [3 / 2; 2] else solve1 cols b
  else None.
Fixpoint first_min (l : list R) : nat :=
  match l with
  | [] => O
  | x :: r => match r with [] => O | _ => if Rle_dec x (nth (first_min r) r 0) then O else S (first_min r) end
  end.
Example C66_prune_case : least_squares 3 solve2 /\ arg_min first_min /\
  solve2 [[1; 1; 0]; [0; 0; 1]] [2; 1; 2] <> None /\ solve2 [[0; 0; 1]] [2; 1; 2] <> None.
Proof.
  assert (HS : least_squares 3 solve2).
  { intros cols b c F Lb E. unfold solve2 in E. destruct (list_eq_dec _ _ _) as [->|]; [|discriminate].
    destruct (list_eq_dec _ _ _) as [->|]; [|apply (C66_solver 3); assumption]. injection E as <-. split; [reflexivity|].
    intros [|c1 [|c2 [|]]] L; try discriminate. unfold sqdist, lin. cbn.
    pose proof (Rle_0_sqr (c1 - 3 / 2)) as S1. pose proof (Rle_0_sqr (c2 - 2)) as S2. unfold Rsqr in S1, S2. lra. }
  assert (HM : arg_min first_min).
  { intros l. induction l as [|x l IH]; [congruence|]. intros _. destruct l as [|y l]; [split; [cbn; lia|intros [|j] H; cbn in *; [lra|lia]]|].
    destruct (IH ltac:(discriminate)) as [I1 I2]. set (r := y :: l) in *. change (first_min (x :: r)) with (if Rle_dec x (nth (first_min r) r 0) then O else S (first_min r)).
    destruct (Rle_dec _ _) as [H|H]; (split; [cbn [length]; lia|]); intros [|j] Hj; cbn [nth length] in *; try lra.
    - specialize (I2 j ltac:(lia)). lra.
    - apply I2. lia. }
  split; [exact HS|]. split; [exact HM|]. unfold solve2. split.
  - destruct (list_eq_dec _ _ _) as [_|X]; [|congruence]. destruct (list_eq_dec _ _ _) as [_|X]; [discriminate|congruence].
  - destruct (list_eq_dec _ _ _) as [_|X]; [|congruence]. destruct (list_eq_dec _ _ _) as [X|_]; [discriminate|].
    unfold solve1. destruct (Req_EM_T _ _) as [E|E]; [exfalso; unfold dotR in E; cbn in E; lra|discriminate].
Qed.

Print Assumptions C66_func_sq.
Print Assumptions C66_atoms.
Print Assumptions C66_update_span.
Print Assumptions C66_first_gap.
Print Assumptions C66_span_run.
Print Assumptions C66_update_full_correction.
Print Assumptions C66_line_search.
Print Assumptions C66_span_descends_refuted.
Print Assumptions C66_span_feasible_refuted.
Print Assumptions C66_prune_cheapest_refuted.
Print Assumptions C66_full_correction_improves_refuted.
