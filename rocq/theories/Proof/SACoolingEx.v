From Coq Require Import List Arith Bool Reals Lra Lia.
From Verif.Base Require Import Num Vec Instances.
From Verif.Model Require Import Common SA SACooling.
Import ListNotations.
Local Open Scope R_scope.

(** one move on B x with a draw of zero *)
Definition climb mx (B : R) : outc (Res (RNum mx) (list R) (list R) * R) :=
  sa_optimize (N := RNum mx) 1 0 2 1 0 1 1 0 0 (exponential_schedule (N := RNum mx) (/ 2)) ln exp
    (fun x => B * nth 0 x 0) (fun _ => (1 - exp (-1) / 2, 0)) {| cs_stop := fun _ => false; cs_grad := fun _ _ _ g => g |} 1 [0].
Lemma climb_value mx B : exists r T, climb mx B = Ret (r, T) /\ o_val r = B.
Proof.
  assert (E1 : exp (-1) < 1) by (rewrite <- exp_0; apply exp_increasing; lra). pose proof (exp_pos (-1)) as E0.
  assert (LM : laplace (N := RNum mx) ln 1 (1 - exp (-1) / 2) = 1).
  { unfold laplace. change (nlt (n := RNum mx)) with Rltb. change (nsub (n := RNum mx)) with Rminus. change (nmul (n := RNum mx)) with Rmult.
    change (nofZ (n := RNum mx) 2) with 2. change (n1 (n := RNum mx)) with 1. change (n0 (n := RNum mx)) with 0. change (nopp (n := RNum mx)) with Ropp.
    destruct (Rltb_spec (2 * (1 - exp (-1) / 2) - 1) 0) as [C|C]; [lra|].
    replace (1 - (2 * (1 - exp (-1) / 2) - 1)) with (exp (-1)) by field. rewrite ln_exp. change (Num.T (RNum mx)) with R. ring. }
  unfold climb, sa_optimize. cbn [init_moves cooling]. unfold generate_move. cbn [sa_x sa_size sa_acc sa_idx nth_error map sa_j sa_e sa_t].
  rewrite LM. cbn [set_nth length Nat.eqb cs_stop].
  assert (K2 : forall d d' t, (Rleb d 0 || Rltb 0 (exp (d' / t)))%bool = true).
  { intros d d' t. apply orb_true_iff. right. destruct (Rltb_spec 0 (exp (d' / t))) as [_|C]; [reflexivity|]. pose proof (exp_pos (d' / t)). lra. }
  change (nle (n := RNum mx)) with Rleb. change (nlt (n := RNum mx)) with Rltb. change (ndiv (n := RNum mx)) with Rdiv.
  change (n0 (n := RNum mx)) with 0. rewrite K2. cbn [sa_e sa_x].
  change (nadd (n := RNum mx)) with Rplus. 
  match goal with |- context [if ?c then Some _ else _] => destruct c end; eexists _, _; (split; [reflexivity|]); cbn; change (Num.T (RNum mx)) with R; ring.
Qed.
