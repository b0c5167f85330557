From Coq Require Import List Arith Reals Lra Lia.
From Verif.Base Require Import Num Instances Vec.
From Verif.Model Require Import AugLag.
From Verif.Spec Require Import Gradient AugLagSpec.
From Verif.Proof Require Import GradientProof.
Import ListNotations.
Local Open Scope R_scope.

Section Value.
  Variable mx : R.
  Notation RN := (RNum mx).
  Lemma aug_terms_ok (sigma : R) x : forall (cs : list (list R -> R)) (lambda : list R) (obj : R),
    (length cs <= length lambda)%nat ->
    aug_terms (N := RN) sigma cs lambda x obj =
    Some (obj - csum (fun l c => l * c x) lambda cs + sigma / 2 * csum (fun _ c => c x ^ 2) lambda cs).
  Proof.
    induction cs as [|c cs IH]; intros lambda obj L; cbn [aug_terms].
    - destruct lambda; cbn; f_equal; lra.
    - destruct lambda as [|l lambda]; [cbn in L; lia|]. rewrite IH by (cbn in L; lia). f_equal. cbn. lra.
  Qed.
  Lemma aug_terms_short (sigma : R) x : forall (cs : list (list R -> R)) (lambda : list R) (obj : R),
    (length lambda < length cs)%nat -> aug_terms (N := RN) sigma cs lambda x obj = None.
  Proof.
    induction cs as [|c cs IH]; intros lambda obj L; cbn [aug_terms]; [cbn in L; lia|].
    destruct lambda as [|l lambda]; [reflexivity|]. apply IH. cbn in L. lia.
  Qed.

  Lemma aug_grad_ok (sigma : R) x : forall (cs : list ((list R -> R) * (list R -> list R))) (lambda : list R) h g,
    (length cs <= length lambda)%nat ->
    (forall c cg, In (c, cg) cs -> gradient_at c x (cg x)) ->
    gradient_at h x g ->
    exists g', aug_grad_terms (N := RN) sigma cs lambda x g = Some g' /\
      gradient_at (fun y => h y - csum (fun l c => l * c y) lambda (map fst cs)
                           + sigma / 2 * csum (fun _ c => c y ^ 2) lambda (map fst cs)) x g'.
  Proof.
    induction cs as [|[c cg] cs IH]; intros lambda h g L G H; cbn [aug_grad_terms].
    - exists g. split; [reflexivity|]. apply gradient_ext with (2 := H). intros y. destruct lambda; cbn; lra.
    - destruct lambda as [|l lambda]; [cbn in L; lia|].
      pose proof (G c cg (or_introl eq_refl)) as GC.
      destruct (IH lambda (fun y => h y + (- l * c y + sigma / 2 * (c y) ^ 2))
                 (vadd (N := RN) g (vscale (N := RN) (- l + sigma * c x) (cg x)))) as (g' & E & P).
      + cbn in L. lia.
      + intros c' cg' I. apply G. right. exact I.
      + apply gradient_plus; [exact H|].
        apply (gradient_comp mx (fun v => - l * v + sigma / 2 * v ^ 2) (- l + sigma * c x) c x (cg x) GC).
        replace (- l + sigma * c x) with (- l * 1 + sigma / 2 * (INR 2 * c x ^ Nat.pred 2)) by (cbn; lra).
        apply (derivable_pt_lim_plus (fun v => - l * v) (fun v => sigma / 2 * v ^ 2)).
        * apply derivable_pt_lim_scal, derivable_pt_lim_id.
        * apply (derivable_pt_lim_scal (fun v => v ^ 2)), derivable_pt_lim_pow.
      + exists g'. split; [exact E|]. apply gradient_ext with (2 := P). intros y. cbn. lra.
  Qed.
End Value.
