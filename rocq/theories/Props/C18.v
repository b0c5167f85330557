(** C18: particle swarm optimisation. *)
From Coq Require Import List Arith Bool ZArith Lia Reals Lra.
From Verif.Base Require Import Num Vec Instances.
From Verif.Model Require Import Common SA PSO.
From Verif.Spec Require Import CommonSpec DESpec PSOSpec.
From Verif.Proof Require Import PSOProof.
Import ListNotations.

(** Over any ordered number type (IEEE doubles included), for every objective,
    velocity update policy, initial swarm and callbacks, with
    1 <= horizonSize <= maxIterations, some initial objective below DBL_MAX and no
    stop requested during the initial evaluations: Optimize() returns; its events
    are the initial evaluations and then the iterations described in
    Spec/PSOSpec.v, where personal bests are only replaced by better positions of
    the same particle and StepTaken shows a best of the personal bests.  The value
    returned is the objective of the point returned, which is the best personal
    best.  The run ends by its limit, a request, or because the swarm best improved
    by less than the tolerance over the last horizonSize iterations. *)
Theorem C18_pso :
  forall {N : Num} (maxIterations horizonSize : nat) (impTolerance : N) f velocity
         (cb : CB N (list N) (list N)) pos0 vel0 (x : list N),
  OrdLaws N -> (forall it pos vel pb fit, length (velocity it pos vel pb fit) = length pos) ->
  0 < horizonSize -> horizonSize <= maxIterations ->
  (exists y, In y pos0 /\ nlt (f y) nmax = true) ->
  (forall j, j < length pos0 -> cs_stop cb (rev (seen f (firstn (S j) pos0)) ++ [Begin x]) = false) ->
  exists r es bs pb, pso_optimize maxIterations horizonSize impTolerance f velocity cb pos0 vel0 x = Some (Ret r) /\
    o_tr r = Begin x :: seen f pos0 ++ es ++ [End (o_x r)] /\
    iterations f velocity 0 pos0 vel0 pos0 es bs pb /\
    nth_error bs (length bs - 1) = Some (o_x r) /\ is_best f pb (o_x r) /\ o_val r = f (o_x r) /\
    0 < length bs <= maxIterations /\
    (length bs = maxIterations \/ asked cb (o_tr r) \/
     exists a c, horizonSize <= length bs /\ nth_error bs (length bs - horizonSize) = Some a /\ nth_error bs (length bs - 1) = Some c /\
       nlt (nsub (f a) (f c)) impTolerance = true).
Proof. intros N mi h tol f vel cb p v x L HV. exact (pso_ok mi h tol f vel cb L HV p v x). Qed.
Print Assumptions C18_pso.

(** If moreover the objective is never NaN, the value returned is not above any
    objective evaluated in the run, except possibly the very last one (which is
    ignored when its callback asks to stop within the first horizonSize iterations). *)
Theorem C18_returns_the_best_seen :
  forall {N : Num} (maxIterations horizonSize : nat) (impTolerance : N) f velocity
         (cb : CB N (list N) (list N)) pos0 vel0 (x : list N) r,
  OrdLaws N -> (forall it pos vel pb fit, length (velocity it pos vel pb fit) = length pos) ->
  (forall y, nisnan (f y) = false) ->
  0 < horizonSize -> horizonSize <= maxIterations ->
  (exists y, In y pos0 /\ nlt (f y) nmax = true) ->
  (forall j, j < length pos0 -> cs_stop cb (rev (seen f (firstn (S j) pos0)) ++ [Begin x]) = false) ->
  pso_optimize maxIterations horizonSize impTolerance f velocity cb pos0 vel0 x = Some (Ret r) ->
  forall l1 y v l2, o_tr r = l1 ++ Ev y v :: l2 -> 2 < length l2 -> nlt v (o_val r) = false.
Proof.
  intros N mi h tol f vel cb p v x r L HV NN H1 H2 H3 H4 E l1 y w l2 X LL.
  destruct (pso_ok mi h tol f vel cb L HV p v x H1 H2 H3 H4) as (r' & es & bs & pb & E' & T & I & B1 & [B2 B2'] & B3 & _).
  rewrite E in E'. injection E' as <-.
  destruct (iterations_mono f vel L HV NN _ _ _ _ _ _ _ I eq_refl) as [M1 M2].
  assert (K : w = f y /\ exists b, In b pb /\ nle (f b) (f y) = true).
  { rewrite T in X. destruct l1 as [|e l1]; [discriminate|]. injection X as _ X.
    destruct (Nat.lt_ge_cases (length l1) (length (seen f p))) as [Q|Q].
    - assert (Y : nth_error (seen f p ++ es ++ [End (o_x r)]) (length l1) = Some (Ev y w)).
      { rewrite X, nth_error_app2, Nat.sub_diag by lia. reflexivity. }
      rewrite nth_error_app1 in Y by exact Q. unfold seen in Y. rewrite nth_error_map in Y.
      destruct (nth_error p (length l1)) as [y'|] eqn:Z; [|discriminate]. cbn in Y. injection Y as -> <-.
      split; [reflexivity|]. destruct (M1 _ _ Z) as (b & Z1 & Z2). exists b. split; [eapply nth_error_In; eauto|exact Z2].
    - assert (SP : exists l0, l0 ++ Ev y w :: l2 = es ++ [End (o_x r)]).
      { clear - X Q. remember (seen f p) as a eqn:A; clear A. revert l1 X Q. induction a as [|c a IHa]; intros l1 X Q; [exists l1; auto|].
        destruct l1 as [|d l1]; [simpl in Q; lia|]. injection X as -> X. apply (IHa l1 X). simpl in Q. lia. }
      destruct SP as (l0 & SP). destruct (exists_last (l := l2) ltac:(destruct l2; simpl in LL; [lia|discriminate])) as (l3 & z & ->).
      rewrite app_comm_cons, app_assoc in SP. apply app_inj_tail in SP as [SP _].
      apply (M2 l0 y w l3 (eq_sym SP)). rewrite app_length in LL. simpl in LL. lia. }
  destruct K as (-> & b & K1 & K2). rewrite B3. specialize (B2' b K1).
  destruct (nlt (f y) (f (o_x r))) eqn:Z; [|reflexivity].
  rewrite (ol_le_lt _ L _ _ _ K2 Z) in B2'. discriminate.
Qed.
Print Assumptions C18_returns_the_best_seen.

(** Optimize() throws exactly when maxIterations < horizonSize. *)
Theorem C18_horizon_checked :
  forall {N : Num} (maxIterations horizonSize : nat) (tol : N) f velocity cb pos0 vel0 (x : list N),
  pso_optimize maxIterations horizonSize tol f velocity cb pos0 vel0 x = None <-> maxIterations < horizonSize.
Proof.
  intros. unfold pso_optimize. destruct (Nat.ltb_spec maxIterations horizonSize); [tauto|].
  destruct (pso_first _ _ _ _ _) as [[fit tr] t]. split; [discriminate|lia].
Qed.
Print Assumptions C18_horizon_checked.

(** The local best policy is a velocity policy of the kind required above ... *)
Theorem C18_lbest_is_a_policy : forall {N : Num} (chi c1 c2 : N) r1 r2 pos vel pb fit,
  length (lbest_velocity chi c1 c2 r1 r2 pos vel pb fit) = length pos.
Proof. intros. unfold lbest_velocity. rewrite map_length, seq_length. reflexivity. Qed.

(** ... but its local best is not the best of a particle and its two neighbours, as
    documented: the left neighbour is never used. *)
Theorem C18_lbest_uses_both_neighbours_refuted :
  (forall (N : Num) (fit : list N) i, local_best fit i = i \/ local_best fit i = ((i + 1) mod length fit)%nat) /\
  exists (fit : list ZNum) i k, i < length fit /\ k = ((i + length fit - 1) mod length fit)%nat /\
    nlt (nth k fit n0) (nth (local_best fit i) fit n0) = true.
Proof.
  split; [intros; unfold local_best; destruct (nlt _ _); auto|].
  exists [0; 5; 7; 9]%Z, 1%nat, 0%nat. split; [simpl; lia|]. split; reflexivity.
Qed.
Print Assumptions C18_lbest_uses_both_neighbours_refuted.

Section Bounds.
Local Open Scope R_scope.
(** Vector bounds: the initial particles lie within them (exact reals, u in [0,1]). *)
Theorem C18_initial_positions : forall mx (lower upper u : list R) (i : nat) (l h w : R),
  length lower = length upper -> (length lower > 1)%nat ->
  nth_error lower i = Some l -> nth_error upper i = Some h -> nth_error u i = Some w -> l <= h -> 0 <= w <= 1 ->
  let '(lo, up) := init_bounds (N := RNum mx) lower upper (length u) in
  exists p : R, nth_error (init_position (N := RNum mx) lo up u) i = Some p /\ l <= p <= h.
Proof.
  intros mx lower upper u i l h w L L1 Hl Hu Hw LH W. unfold init_bounds.
  destruct lower as [|a [|b lower]]; simpl in L1; try lia. destruct upper as [|c [|d upper]]; simpl in L; try lia.
  exists (w * (h - l) + l). split; [|nra].
  unfold init_position, vadd, vmul, vsub.
  revert Hl Hu Hw. generalize (a :: b :: lower), (c :: d :: upper). clear. intros A B. revert A B u.
  induction i as [|i IH]; intros A B u HA HB HU; destruct A, B, u; try discriminate.
  - cbn in *. injection HA as ->. injection HB as ->. injection HU as ->. reflexivity.
  - cbn in *. apply IH; assumption.
Qed.
Print Assumptions C18_initial_positions.

(** Scalar bounds: the lower bound is negated, so [-5, 10] becomes [5, 10] and the
    particles never start in the lower part; [5, 10] becomes [-5, 10]. *)
Theorem C18_scalar_bounds_refuted : forall mx,
  exists (l h : R), l < h /\ init_bounds (N := RNum mx) [l] [h] 1 = ([- l], [h]) /\
   (exists w, 0 <= w <= 1 /\ forall p : R, init_position (N := RNum mx) [- l] [h] [w] = [p] -> p < l).
Proof.
  intros mx. exists 5, 10. split; [lra|]. split.
  - unfold init_bounds. change (neq (n := RNum mx) 5 10) with (if Req_EM_T 5 10 then true else false).
    destruct (Req_EM_T 5 10); [lra|]. reflexivity.
  - exists 0. split; [lra|]. intros p E. cbn in E. injection E as <-. lra.
Qed.
Print Assumptions C18_scalar_bounds_refuted.
End Bounds.

Definition quiet18 {N : Num} : CB N (list N) (list N) := {| cs_stop := fun _ => false; cs_grad := fun _ _ _ g => g |}.
Definition lb18 (it : nat) := lbest_velocity (N := ZNum) 1%Z 1%Z 1%Z (fun _ => [1%Z]) (fun _ => [0%Z]).
Definition sq18 (x : list ZNum) : ZNum := fold_right (fun a s => a * a + s)%Z 0%Z x.

(** A stop requested while the initial swarm is evaluated makes Optimize() return
    DBL_MAX, which is not the objective of the point it returns; and so does
    maxIterations = horizonSize = 0. *)
Theorem C18_value_matches_point_refuted :
  exists (cb : CB ZNum (list ZNum) (list ZNum)) r r', pso_optimize 2 1 0%Z sq18 lb18 cb [[3%Z]; [2%Z]] [[0%Z]; [0%Z]] [0%Z] = Some (Ret r) /\
    o_val r = nmax /\ o_x r = [3%Z] /\
    pso_optimize 0 0 0%Z sq18 lb18 quiet18 [[3%Z]; [2%Z]] [[0%Z]; [0%Z]] [0%Z] = Some (Ret r') /\
    o_val r' = nmax /\ o_x r' = [3%Z].
Proof.
  exists {| cs_stop := fun _ => true; cs_grad := fun _ _ _ g => g |}. eexists _, _.
  split; [reflexivity|]. split; [reflexivity|]. split; [reflexivity|]. split; [reflexivity|]. split; reflexivity.
Qed.
Print Assumptions C18_value_matches_point_refuted.

(** horizonSize = 0 with maxIterations > 0 takes the front of an empty queue. *)
Theorem C18_zero_horizon_refuted :
  pso_optimize 1 0 0%Z sq18 lb18 quiet18 [[3%Z]; [2%Z]] [[0%Z]; [0%Z]] [0%Z] = Some Bad.
Proof. reflexivity. Qed.

(** A run: the swarm moves, improves, and stops by the horizon test. *)
Example C18_run : match pso_optimize 9 2 1%Z sq18 lb18 quiet18 [[3%Z]; [4%Z]; [-6]%Z] [[-1]%Z; [-2]%Z; [1%Z]] [0%Z] with
  | Some (Ret r) => (o_val r, o_x r, length (o_tr r)) = (0%Z, [0%Z], 21) | _ => False end.
Proof. vm_compute. reflexivity. Qed.
