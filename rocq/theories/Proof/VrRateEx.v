(** A sum that meets the hypotheses of the rates of SVRG and SARAH: x^2/2 and 3(x-2)^2/2,
    exchanged by every other shuffle. *)
From Coq Require Import List Arith Bool Reals Lra Lia Permutation.
From Verif.Base Require Import Num Vec Instances.
From Verif.Model Require Import Common VarRed.
From Verif.Spec Require Import Gradient ConvergeSpec FWSpec VrRateSpec.
Import ListNotations.
Local Open Scope R_scope.

Definition two_grad (i : nat) (x : list R) : list R :=
  map (fun a => match i with O => a | _ => 3 * (a - 2) end) x.
Definition two_order (j : nat) : list nat := if Nat.even j then [0; 1]%nat else [1; 0]%nat.
Definition two_fun (mx : R) (ev : nat -> list R -> nat -> nat -> R) : VFun (RNum mx) :=
  Build_VFun (RNum mx) 2 ev
    (fun j x b c => sum_vec 1 (map (fun i => two_grad i x) (firstn c (skipn b (two_order j))))).
Definition two_avg (x : list R) : R := match x with [a] => (a * a / 2 + 3 * ((a - 2) * (a - 2)) / 2) / 2 | _ => 0 end.

Lemma two_sum mx ev : shuffled_sum mx 1 (two_fun mx ev) two_grad.
Proof.
  intros j. exists (two_order j). split; [|reflexivity]. unfold two_order. destruct (Nat.even j); [apply Permutation_refl|apply perm_swap].
Qed.
Lemma one_coord (x : list R) : length x = 1%nat -> exists a, x = [a].
Proof. destruct x as [|a [|b x]]; try discriminate. eauto. Qed.
Lemma two_smooth : each_smooth 1 2 3 two_grad.
Proof.
  intros i x y I Ex Ey. destruct (one_coord x Ex) as [a ->]. destruct (one_coord y Ey) as [b ->]. split; [reflexivity|].
  destruct i as [|[|i]]; [..|lia]; cbn; assert (0 <= (a - b) * (a - b)) by apply Rle_0_sqr; lra.
Qed.
Lemma two_avg_grad a : avg_grad 1 2 two_grad [a] = [2 * a - 3].
Proof. unfold avg_grad. cbn. f_equal. field. Qed.
Lemma two_avg_smooth : smooth_on (space 1) 3 two_avg (avg_grad 1 2 two_grad).
Proof.
  split.
  - intros x Ex. destruct (one_coord x Ex) as [a ->]. rewrite two_avg_grad. split; [reflexivity|].
    intros d Ed. destruct (one_coord d Ed) as [c ->]. cbn.
    pose (P := (fct_cte ((a * a / 2 + 3 * ((a - 2) * (a - 2)) / 2) / 2) + (mult_real_fct ((2 * a - 3) * c) id + mult_real_fct (c * c) Rsqr))%F).
    assert (D : derivable_pt_lim P 0 (0 + ((2 * a - 3) * c * 1 + c * c * (2 * 0)))).
    { apply derivable_pt_lim_plus; [apply derivable_pt_lim_const|]. apply derivable_pt_lim_plus; apply derivable_pt_lim_scal.
      - apply derivable_pt_lim_id.
      - apply derivable_pt_lim_Rsqr. }
    replace ((2 * a - 3) * c + 0) with (0 + ((2 * a - 3) * c * 1 + c * c * (2 * 0))) by ring.
    intros e He. destruct (D e He) as [dl H]. exists dl. intros h H0 H1. specialize (H h H0 H1).
    replace ((a + (0 + h) * c) * (a + (0 + h) * c)) with ((a + h * c) * (a + h * c)) by ring.
    match type of H with Rabs ?u < _ => match goal with |- Rabs ?v < _ => replace v with u; [exact H|] end end.
    f_equal. f_equal. unfold P, plus_fct, mult_real_fct, fct_cte, id, Rsqr. field.
  - intros x y Ex Ey. destruct (one_coord x Ex) as [a ->]. destruct (one_coord y Ey) as [b ->]. rewrite !two_avg_grad. cbn.
    assert (0 <= (a - b) * (a - b)) by apply Rle_0_sqr. lra.
Qed.
Lemma two_avg_strong : strongly_convex_on (space 1) 2 two_avg.
Proof.
  intros t x y T Ex Ey. destruct (one_coord x Ex) as [a ->]. destruct (one_coord y Ey) as [b ->]. unfold segment_pt, sqn. cbn. nra.
Qed.
Lemma two_avg_min : forall z, length z = 1%nat -> two_avg [3 / 2] <= two_avg z.
Proof. intros z Ez. destruct (one_coord z Ez) as [a ->]. cbn. assert (0 <= (a - 3 / 2) * (a - 3 / 2)) by apply Rle_0_sqr. lra. Qed.
