(** Gradients of sums, multiples and products. *)
From Coq Require Import List Arith Reals Lra Lia.
From Verif.Base Require Import Num Instances Vec.
From Verif.Spec Require Import Gradient.
Import ListNotations.
Local Open Scope R_scope.

Lemma dotR_vadd mx : forall (a b d : list R), length a = length b -> dotR (vadd (N := RNum mx) a b) d = dotR a d + dotR b d.
Proof.
  induction a as [|x a IH]; intros [|y b] d E; try discriminate; cbn; [lra|].
  destruct d as [|z d]; cbn; [lra|]. unfold vadd in IH. cbn in IH. rewrite IH by (cbn in E; lia). lra.
Qed.
Lemma dotR_vscale mx (s : R) : forall (a d : list R), dotR (vscale (N := RNum mx) s a) d = s * dotR a d.
Proof.
  induction a as [|x a IH]; intros [|z d]; cbn; try lra. unfold vscale in IH. cbn in IH. rewrite IH. lra.
Qed.
Lemma along_0 : forall x d, length d = length x -> along x d 0 = x.
Proof.
  induction x as [|a x IH]; intros [|b d] E; try discriminate; cbn; [reflexivity|]. rewrite IH by (cbn in E; lia). f_equal. lra.
Qed.

Lemma gradient_ext f h x g : (forall y, f y = h y) -> gradient_at f x g -> gradient_at h x g.
Proof.
  intros E [L H]. split; [exact L|]. intros d D eps P. destruct (H d D eps P) as [del K]. exists del.
  intros t T0 T1. rewrite <- !E. apply K; assumption.
Qed.
Lemma gradient_plus mx f h x g k : gradient_at f x g -> gradient_at h x k ->
  gradient_at (fun y => f y + h y) x (vadd (N := RNum mx) g k).
Proof.
  intros [L H] [L' H']. split.
  - unfold vadd. rewrite map2_length. change (T (RNum mx)) with R. rewrite L, L'. apply Nat.min_id.
  - intros d D. rewrite dotR_vadd by lia.
    apply (derivable_pt_lim_plus (fun t => f (along x d t)) (fun t => h (along x d t))); auto.
Qed.
Lemma gradient_scal mx s f x g : gradient_at f x g -> gradient_at (fun y => s * f y) x (vscale (N := RNum mx) s g).
Proof.
  intros [L H]. split; [unfold vscale; rewrite map_length; exact L|]. intros d D. rewrite dotR_vscale.
  apply (derivable_pt_lim_scal (fun t => f (along x d t))). auto.
Qed.
(** the derivative along a line of a function of a function *)
Lemma gradient_comp mx (h : R -> R) (h' : R) f x g :
  gradient_at f x g -> derivable_pt_lim h (f x) h' -> gradient_at (fun y => h (f y)) x (vscale (N := RNum mx) h' g).
Proof.
  intros [L H] HH. split; [unfold vscale; rewrite map_length; exact L|]. intros d D. rewrite dotR_vscale.
  apply (derivable_pt_lim_comp (fun t => f (along x d t)) h); [auto|]. rewrite along_0 by exact D. exact HH.
Qed.

Lemma fold_sum_R : forall (l : list R) (a : R), fold_left Rplus l a = a + fold_left Rplus l 0.
Proof.
  induction l as [|x l IH]; intros a; cbn; [lra|]. rewrite IH, (IH (0 + x)). lra.
Qed.
Lemma vdot_dotR mx : forall a b : list R, vdot (N := RNum mx) a b = dotR a b.
Proof.
  unfold vdot, vsum, vmul. cbn. induction a as [|x a IH]; intros [|y b]; cbn; try reflexivity.
  rewrite fold_sum_R, IH. lra.
Qed.
Lemma dotR_comm : forall a b, dotR a b = dotR b a.
Proof. induction a as [|x a IH]; intros [|y b]; cbn; try reflexivity. rewrite IH. lra. Qed.
Lemma dotR_vsub mx : forall (a b d : list R), length a = length b -> dotR (vsub (N := RNum mx) a b) d = dotR a d - dotR b d.
Proof.
  induction a as [|x a IH]; intros [|y b] d E; try discriminate; cbn; [lra|].
  destruct d as [|z d]; cbn; [lra|]. unfold vsub in IH. cbn in IH. rewrite IH by (cbn in E; lia). lra.
Qed.
