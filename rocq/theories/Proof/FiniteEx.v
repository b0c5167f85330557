(** Evaluations that are not looked at: the perturbed ones of SPSA, the infinite ones of L-BFGS. *)
From Coq Require Import List Arith Bool SpecFloat ZArith.
From Verif.Base Require Import Num Instances.
From Verif.Model Require Import SPSA LBFGS Common.
From Verif.Spec Require Import FiniteSpec.
Import ListNotations.

Definition ncb : CB F64 (list F64) (list F64) := {| cs_stop := fun _ => false; cs_grad := fun _ _ _ g => g |}.
(** infinite right of 0 *)
Definition wall (x : list F64) : F64 := match x with [a] => if nlt (fz 0%Z) a then finf else fz 0%Z | _ => fnan end.

Lemma spsa_perturbed :
  ~ (forall (alpha gamma stepSize evaluationStepSize ak : F64) max tol pw f coin cb fuel x r,
     spsa alpha gamma stepSize evaluationStepSize ak max tol pw f coin cb fuel x = Some r ->
     afterwards bad_ev (fun e => ~ is_step e) (o_tr r)).
Proof.
  intros H.
  pose proof (H (fz 1%Z) (fz 1%Z) (fz 1%Z) (fz 1%Z) (fz 0%Z) 1 (fz 0%Z) (fun a _ => fz 1%Z) wall (fun _ => [true]) ncb 3 [fz 0%Z]) as R. clear H.
  match type of R with forall r, ?e = _ -> _ => let v := eval vm_compute in e in
    let E := fresh in assert (E : e = v) by (vm_cast_no_check (eq_refl v)); apply R in E; clear R; rename E into R end.
  cbn [o_tr] in R.
  match type of R with afterwards _ _ (?a :: ?b :: ?c) => specialize (R [a] b c eq_refl (or_intror eq_refl)) end.
  inversion R as [|? ? _ R1]. inversion R1 as [|? ? S1 _]. apply S1. exact I.
Qed.

Lemma lbfgs_infinite :
  ~ (forall numBasis max (armijo minGradientNorm wolfe factr minStep maxStep : F64) maxTrials tol norm2 normF f cb fuel term0 s0 y0 x r,
     lbfgs numBasis max armijo minGradientNorm wolfe factr minStep maxStep maxTrials tol norm2 normF f cb fuel term0 s0 y0 x = Ret r ->
     afterwards bad_ev only_marks (o_tr (fst r))).
Proof.
  intros H. set (f := fun x : list F64 => (wall x, [fz 1%Z])). set (nm := fun x : list F64 => nabs (hd (fz 0%Z) x)).
  pose proof (H 1 1 (fz 0%Z) (fz 0%Z) (fz 0%Z) (fz 0%Z) (fz 0%Z) (fz 9%Z) 1 (fz 0%Z) nm nm f ncb 9 false [[fz 0%Z]] [[fz 0%Z]] [fz 1%Z]) as R. clear H.
  match type of R with forall r, ?e = _ -> _ => let v := eval vm_compute in e in
    let E := fresh in assert (E : e = v) by (vm_cast_no_check (eq_refl v)); apply R in E; clear R; rename E into R end.
  cbn [o_tr fst] in R.
  match type of R with afterwards _ _ (?b :: ?c) => specialize (R [] b c eq_refl (or_intror eq_refl)) end.
  inversion R as [|? ? _ R1]. inversion R1 as [|? ? S1 _]. exact S1.
Qed.
