(** Steps that are not bounded. *)
From Coq Require Import List Arith Reals Lra Lia.
From Verif.Base Require Import Num Instances Size.
From Verif.Model Require Import Updates Sgd SgdPolicies.
From Verif.Spec Require Import UpdatesSpec StepBoundSpec SgdSpec ConvergeSpec.
From Verif.Proof Require Import AdamProof StepBoundProof SgdProof SgdMore UpdatesProof.
Import ListNotations.
Local Open Scope R_scope.

Lemma adam_exceeds :
  ~ (forall mx eps b1 b2, 0 <= b1 <= b2 -> b2 < 1 -> 0 < eps ->
     moves_at_most mx (adam_up (N := RNum mx) pow eps b1 b2) adam_init 1).
Proof.
  intros K. specialize (K 0 1 0 (3 / 4) ltac:(lra) ltac:(lra) ltac:(lra) 0 [(1, 0)] 1 100 ltac:(lra)).
  rewrite (adam_step 0 1 0 (3 / 4) ltac:(lra) ltac:(lra) ltac:(lra)), minus_abs in K.
  assert (S7 : sqrt (7 / 16) * sqrt (7 / 16) = 7 / 16) by (apply sqrt_def; lra).
  assert (SP : 0 < sqrt (7 / 16)) by (apply sqrt_lt_R0; lra).
  assert (E1 : M1 0 ([(1, 0)] ++ [(1, 100)]) / corr 0 ([(1, 0)] ++ [(1, 100)]) = 100).
  { rewrite M1_snoc, corr_snoc. field. }
  assert (E2 : corr (3 / 4) ([(1, 0)] ++ [(1, 100)]) = 7 / 16) by (rewrite corr_snoc; unfold corr; simpl; field).
  assert (E3 : M2 (3 / 4) ([(1, 0)] ++ [(1, 100)]) = 2500).
  { rewrite M2_snoc. unfold M2. simpl. unfold sq; simpl. field. }
  rewrite E1, E2, E3 in K. rewrite sqrt_div_alt in K by lra.
  assert (E4 : sqrt 2500 = 50) by (replace 2500 with (50 * 50) by ring; apply sqrt_square; lra). rewrite E4 in K.
  replace (1 * 100 / (50 / sqrt (7 / 16) + 1 / sqrt (7 / 16))) with (100 * sqrt (7 / 16) / 51) in K by (field; lra).
  rewrite Rabs_pos_eq in K by lra. nra.
Qed.

Lemma adam_unbounded :
  ~ (forall mx eps b1 b2, 0 <= b1 < 1 -> 0 <= b2 < 1 -> 0 < eps ->
     exists C, moves_at_most mx (adam_up (N := RNum mx) pow eps b1 b2) adam_init C).
Proof.
  intros K. destruct (K 0 1 (1 / 2) 0 ltac:(lra) ltac:(lra) ltac:(lra)) as [C M].
  set (B := Rabs C + 1). assert (BP : C < B /\ 1 <= B) by (unfold B; pose proof (Rle_abs C); pose proof (Rabs_pos C); lra).
  specialize (M 0 [(1, 6 * B)] 1 1 ltac:(lra)).
  rewrite (adam_step 0 1 (1 / 2) 0 ltac:(lra) ltac:(lra) ltac:(lra)), minus_abs in M.
  assert (E1 : M1 (1 / 2) ([(1, 6 * B)] ++ [(1, 1)]) / corr (1 / 2) ([(1, 6 * B)] ++ [(1, 1)]) = 2 * B + 2 / 3).
  { rewrite M1_snoc, corr_snoc. unfold M1, corr. simpl. field. }
  assert (E2 : corr 0 ([(1, 6 * B)] ++ [(1, 1)]) = 1) by (rewrite corr_snoc; ring).
  assert (E3 : M2 0 ([(1, 6 * B)] ++ [(1, 1)]) = 1) by (rewrite M2_snoc; ring).
  rewrite E1, E2, E3 in M. replace (1 / 1) with 1 in M by field. rewrite !sqrt_1 in M.
  rewrite Rabs_pos_eq in M by (apply Rmult_le_pos; lra). lra.
Qed.

Lemma adabelief_unbounded :
  ~ (forall mx eps b1 b2, 0 <= b1 < 1 -> 0 <= b2 < 1 -> 0 < eps ->
     exists C, moves_at_most mx (adabelief_up (N := RNum mx) pow eps b1 b2) adam_init C).
Proof.
  intros K. destruct (K 0 1 (1 / 2) 0 ltac:(lra) ltac:(lra) ltac:(lra)) as [C M].
  set (B := Rabs C + 1). assert (BP : C < B /\ 1 <= B) by (unfold B; pose proof (Rle_abs C); pose proof (Rabs_pos C); lra).
  specialize (M 0 [(1, 6 * B)] 1 (3 * B) ltac:(lra)).
  rewrite (adabelief_step 0 1 (1 / 2) 0), minus_abs in M.
  assert (E1 : M1 (1 / 2) ([(1, 6 * B)] ++ [(1, 3 * B)]) / corr (1 / 2) ([(1, 6 * B)] ++ [(1, 3 * B)]) = 4 * B).
  { rewrite M1_snoc, corr_snoc. unfold M1, corr. simpl. field. }
  assert (E2 : corr 0 ([(1, 6 * B)] ++ [(1, 3 * B)]) = 1) by (rewrite corr_snoc; ring).
  assert (E3 : belief 1 (1 / 2) 0 ([(1, 6 * B)] ++ [(1, 3 * B)]) = 1).
  { rewrite belief_snoc, M1_snoc. assert (Q : M1 (1 / 2) [(1, 6 * B)] = 3 * B) by (unfold M1; simpl; field).
    rewrite Q. unfold sq. field. }
  rewrite E1, E2, E3 in M. replace (1 / 1) with 1 in M by field. rewrite !sqrt_1 in M.
  rewrite Rabs_pos_eq in M by (apply Rmult_le_pos; lra). lra.
Qed.

(** a sum of three squares; the gradient of a batch is the sum of those of its terms *)
Definition squares3 (mx : R) : SepFun (RNum mx) (list R) (list R) := @Build_SepFun (RNum mx) (list R) (list R)
  3
  (fun _ x b k => sumR (map (fun i => (nth 0 x 0 - INR i) * (nth 0 x 0 - INR i) / 2) (seq b k)))
  (fun _ x b k => (sumR (map (fun i => (nth 0 x 0 - INR i) * (nth 0 x 0 - INR i) / 2) (seq b k)),
                   [sumR (map (fun i => nth 0 x 0 - INR i) (seq b k))])).
Lemma adam_sq3 : forall (mx : R), exists r,
  optimize_with (@Build_Cfg (RNum mx) (list R) (list R) (list (@adam_st (RNum mx))) unit 2 6 0 true false
      (vec_up (N := RNum mx) (adam_up (N := RNum mx) pow (1 / 100000000) (9 / 10) (999 / 1000))) (sgd_no_decay (N := RNum mx))) (squares3 mx)
      {| cb_stop := fun _ => false; cb_grad := fun _ g => g |} 100 [adam_init] tt (1 / 10) [5] = Return r /\
  forall i, Rabs (nth i (r_x r) 0 - nth i [5] 0) <= 10 * (1 / 10) * INR (length (stepped (r_trace r))).
Proof.
  intros mx.
  match goal with |- exists r, optimize_with ?c ?f ?cb ?fu ?u ?d ?s ?x = _ /\ _ =>
    assert (E : exists r, optimize_with c f cb fu u d s x = Return r) by (apply c02_terminates; cbn; lia) end.
  destruct E as [r E]. exists r. split; [exact E|].
  assert (S1 : sqrt ((1 - 9 / 10) / (1 - 999 / 1000)) = 10).
  { replace ((1 - 9 / 10) / (1 - 999 / 1000)) with (10 * 10) by field. apply sqrt_square. lra. }
  pose proof (adam_moves mx (1 / 100000000) (9 / 10) (999 / 1000) ltac:(lra) ltac:(lra) ltac:(lra)) as M. rewrite S1 in M.
  refine (proj2 (proj2 (sgd_close mx _ _ _ _ 10 _ _ _ [5] tt (1 / 10) 100 r M _ _ _ _ _ _ _ _ E))); try lra; try reflexivity; cbn; try lia.
Qed.
